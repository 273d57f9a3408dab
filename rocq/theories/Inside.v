(** The node that counts as the last child of a node is inside it, after any sequence of builder calls. *)
From Coq Require Import Lia QArith Lqa Permutation.
From Verif Require Import Base Pointer Index Tree Builder Hist Node Iter Edit Spec SpecReads SpecShape SpecTour SpecEnds Rep Refine TreeRep Enum Walk AllHist StepFacts AllPlaced Modify PropsSafe
  AllReads Settle Shape Tour Ends PropsShape.
Open Scope nat_scope.

Section Inside.
Context {T : Type}.
Implicit Types (x y : rose T) (l : list (rose T)).

Lemma ids_kids x l : In x l -> forall i, i = r_id x \/ In i (ids (r_kids x)) -> In i (ids l).
Proof.
  induction l as [|[j k d sp kids] l IH]; [tauto|]. intros Hx i Hi. rewrite ids_cons. destruct Hx as [<-|Hx].
  - simpl in Hi. destruct Hi as [->|Hi]; simpl; auto. right. apply in_or_app. auto.
  - right. apply in_or_app. right. eapply IH; eauto.
Qed.
Lemma ids_below x l : In x (preorder_list l) -> forall i, In i (ids (r_kids x)) -> In i (ids l).
Proof.
  intros Hx i Hi. apply in_map_iff in Hi as (z & <- & Hz). apply in_map.
  revert Hx Hz. unfold preorder_list. rewrite !in_flat_map. intros (y & Hy & Hx) (u & Hu & Hz). exists y. split; auto.
  clear Hy. induction y as [j k d sp kids IH] using rose_ind'. simpl in Hx |- *. rewrite in_flat_map in *. destruct Hx as [<-|Hx].
  - right. simpl in Hu. eauto.
  - right. destruct Hx as (v & Hv & Hx). exists v. split; auto. rewrite Forall_forall in IH. apply IH; auto.
Qed.

(** ** Images of nodes *)
Lemma after_images s new : r_kids new = [] -> forall l x', In x' (preorder_list (flat_map (after_in s new) l)) ->
  x' = new \/ exists x, In x (preorder_list l) /\ r_id x' = r_id x /\ r_kids x' = flat_map (after_in s new) (r_kids x).
Proof.
  intros Hn l. induction l as [|y l IHl]; intros x' Hx; [destruct Hx|]. simpl flat_map in Hx. apply in_pre_app in Hx as [Hx|Hx].
  - assert (G : forall y x', In x' (preorder_list (after_in s new y)) -> x' = new \/ exists x, In x (preorder y) /\ r_id x' = r_id x /\ r_kids x' = flat_map (after_in s new) (r_kids x)).
    { clear -Hn. induction y as [i k d sp kids IH] using rose_ind'. intros x' Hx. simpl after_in in Hx. apply in_pre_cons in Hx as [->|[Hx|Hx]].
      - right. exists (Nd i k d sp kids). simpl. auto.
      - unfold preorder_list in Hx. rewrite in_flat_map in Hx. destruct Hx as (y' & Hy' & Hx). apply in_flat_map in Hy' as (u & Hu & Hy').
        rewrite Forall_forall in IH. destruct (IH u Hu x') as [->|(x & Hx1 & Hx2)]; auto.
        + unfold preorder_list. rewrite in_flat_map. eauto.
        + right. exists x. split; auto. simpl. right. rewrite in_flat_map. eauto.
      - destruct (Nat.eqb i s); [|destruct Hx]. unfold preorder_list in Hx. simpl in Hx. rewrite app_nil_r in Hx. destruct new as [j k' d' sp' kids']. simpl in Hn. subst kids'. simpl in Hx. destruct Hx as [<-|[]]. auto. }
    destruct (G _ _ Hx) as [->|(x & H1 & H2)]; auto. right. exists x. split; auto. unfold preorder_list. simpl. apply in_or_app. auto.
  - destruct (IHl _ Hx) as [->|(x & H1 & H2)]; auto. right. exists x. split; auto. unfold preorder_list. simpl. apply in_or_app. auto.
Qed.
Lemma after_old s new i : forall l, In i (ids l) -> In i (ids (flat_map (after_in s new) l)).
Proof.
  assert (G : forall n l, size_l l <= n -> In i (ids l) -> In i (ids (flat_map (after_in s new) l))).
  { induction n as [|n IH]; intros [|[j k d sp kids] l] Hn Hi; try (destruct Hi; fail); rewrite size_l_cons, size_eq in Hn; cbn [r_kids] in Hn; [lia|].
    rewrite ids_cons in Hi. simpl flat_map. rewrite ids_cons, ids_app. destruct Hi as [<-|Hi]; simpl; auto. right. rewrite !in_app_iff in *. destruct Hi as [Hi|Hi].
    - left. apply IH; auto. lia.
    - right. right. apply IH; auto. lia. }
  intros l. apply (G (size_l l)). auto.
Qed.
Lemma after_new s new : forall l, In s (ids l) -> In (r_id new) (ids (flat_map (after_in s new) l)).
Proof.
  assert (G : forall n l, size_l l <= n -> In s (ids l) -> In (r_id new) (ids (flat_map (after_in s new) l))).
  { induction n as [|n IH]; intros [|[j k d sp kids] l] Hn Hi; try (destruct Hi; fail); rewrite size_l_cons, size_eq in Hn; cbn [r_kids] in Hn; [lia|].
    rewrite ids_cons in Hi. simpl flat_map. rewrite ids_cons, ids_app. destruct Hi as [<-|Hi].
    - rewrite Nat.eqb_refl. right. apply in_or_app. right. apply in_or_app. left. destruct new; simpl; auto.
    - right. rewrite !in_app_iff in *. destruct Hi as [Hi|Hi].
      + left. apply IH; auto. lia.
      + right. right. apply IH; auto. lia. }
  intros l. apply (G (size_l l)). auto.
Qed.

Lemma into_images p new : r_kids new = [] -> forall l x', In x' (preorder_list (map (into p new) l)) ->
  x' = new \/ exists x, In x (preorder_list l) /\ r_id x' = r_id x /\ r_kids x' = map (into p new) (r_kids x) ++ (if Nat.eqb (r_id x) p then [new] else []).
Proof.
  intros Hn l x' Hx. unfold preorder_list in Hx. rewrite in_flat_map in Hx. destruct Hx as (y' & Hy & Hx). apply in_map_iff in Hy as (y & <- & Hy).
  assert (G : forall y x', In x' (preorder (into p new y)) -> x' = new \/ exists x, In x (preorder y) /\ r_id x' = r_id x /\ r_kids x' = map (into p new) (r_kids x) ++ (if Nat.eqb (r_id x) p then [new] else [])).
  { clear -Hn. induction y as [i k d sp kids IH] using rose_ind'. intros x' Hx. simpl in Hx. destruct Hx as [<-|Hx].
    - right. exists (Nd i k d sp kids). simpl. auto.
    - rewrite flat_map_app in Hx. apply in_app_iff in Hx as [Hx|Hx].
      + rewrite in_flat_map in Hx. destruct Hx as (y' & Hy' & Hx). apply in_map_iff in Hy' as (u & <- & Hu).
        rewrite Forall_forall in IH. destruct (IH u Hu x' Hx) as [->|(x & Hx1 & Hx2)]; auto. right. exists x. split; auto. simpl. right. rewrite in_flat_map. eauto.
      + destruct (Nat.eqb i p); [|destruct Hx]. simpl in Hx. rewrite app_nil_r in Hx. destruct new as [j k' d' sp' kids']. simpl in Hn. subst kids'. simpl in Hx. destruct Hx as [<-|[]]. auto. }
  destruct (G _ _ Hx) as [->|(x & H1 & H2)]; auto. right. exists x. split; auto. unfold preorder_list. rewrite in_flat_map. eauto.
Qed.
Lemma into_old p new i : forall l, In i (ids l) -> In i (ids (map (into p new) l)).
Proof.
  assert (G : forall n l, size_l l <= n -> In i (ids l) -> In i (ids (map (into p new) l))).
  { induction n as [|n IH]; intros [|[j k d sp kids] l] Hn Hi; try (destruct Hi; fail); rewrite size_l_cons, size_eq in Hn; cbn [r_kids] in Hn; [lia|].
    rewrite ids_cons in Hi. cbn [map into]. rewrite ids_cons, ids_app. destruct Hi as [<-|Hi]; simpl; auto. right. rewrite !in_app_iff in *. destruct Hi as [Hi|Hi].
    - left. left. apply IH; auto. lia.
    - right. apply IH; auto. lia. }
  intros l. apply (G (size_l l)). auto.
Qed.

Lemma respan_images p f : forall l x', In x' (preorder_list (map (respan p f) l)) ->
  exists x, In x (preorder_list l) /\ r_id x' = r_id x /\ r_kids x' = map (respan p f) (r_kids x).
Proof.
  intros l x' Hx. unfold preorder_list in Hx. rewrite in_flat_map in Hx. destruct Hx as (y' & Hy & Hx). apply in_map_iff in Hy as (y & <- & Hy).
  assert (G : forall y x', In x' (preorder (respan p f y)) -> exists x, In x (preorder y) /\ r_id x' = r_id x /\ r_kids x' = map (respan p f) (r_kids x)).
  { clear. induction y as [i k d sp kids IH] using rose_ind'. intros x' Hx. simpl in Hx. destruct Hx as [<-|Hx].
    - exists (Nd i k d sp kids). simpl. auto.
    - rewrite in_flat_map in Hx. destruct Hx as (y' & Hy' & Hx). apply in_map_iff in Hy' as (u & <- & Hu).
      rewrite Forall_forall in IH. destruct (IH u Hu x' Hx) as (x & Hx1 & Hx2). exists x. split; auto. simpl. right. rewrite in_flat_map. eauto. }
  destruct (G _ _ Hx) as (x & H1 & H2). exists x. split; auto. unfold preorder_list. rewrite in_flat_map. eauto.
Qed.
Lemma respan_ids p f l : ids (map (respan p f) l) = ids l.
Proof.
  assert (G : forall n l, size_l l <= n -> ids (map (respan p f) l) = ids l).
  { induction n as [|n IH]; intros [|[j k d sp kids] l'] Hn; auto; rewrite size_l_cons, size_eq in Hn; cbn [r_kids] in Hn; [lia|].
    cbn [map respan]. rewrite !ids_cons. rewrite !IH by lia. auto. }
  apply (G (size_l l)). auto.
Qed.

(** Wrapping. *)
Lemma wrap_cons id (w : rose T -> list (rose T) -> rose T) y r : wrap_from id w (y :: r) = if Nat.eqb (r_id y) id then [w y r] else wrap_in id w y :: wrap_from id w r.
Proof. auto. Qed.
Lemma wrap_images id n k0 d0 (g : rose T -> list (rose T) -> span) (w := fun x later => Nd n k0 d0 (g x later) (x :: later)) : forall m l, size_l l <= m -> NoDup (ids l) -> forall x', In x' (preorder_list (wrap_from id w l)) ->
  (exists o s1 y r, In (o, s1 ++ y :: r) (sibling_lists l) /\ r_id y = id /\ r_id x' = n /\ r_kids x' = y :: r) \/
  exists x, In x (preorder_list l) /\ r_id x' = r_id x /\ (r_kids x' = wrap_from id w (r_kids x) \/ r_kids x' = r_kids x /\ ~ In id (ids (r_kids x))).
Proof.
  induction m as [|m IH]; intros [|y l] Hm Hnd x' Hx; try (destruct Hx; fail); rewrite size_l_cons, size_eq in Hm; [lia|].
  assert (Hc : ids (y :: l) = r_id y :: ids (r_kids y) ++ ids l) by (destruct y; apply ids_cons).
  assert (Hin : forall x, In x (preorder_list (y :: l)) <-> x = y \/ In x (preorder_list (r_kids y)) \/ In x (preorder_list l)) by (intros x; destruct y; apply in_pre_cons).
  rewrite Hc in Hnd. inversion Hnd as [|? ? Hni Hnd']; subst. apply NoDup_app_iff in Hnd' as (Hn1 & Hn2 & Hn3).
  rewrite wrap_cons in Hx. destruct (Nat.eqb_spec (r_id y) id) as [He|He].
  - apply in_pre_cons in Hx as [->|[Hx|Hx]]; [|right|destruct Hx].
    + left. exists None, [], y, l. simpl. split; auto.
    + exists x'. split; auto. split; auto. right. split; auto. intros Hi. apply Hin in Hx. apply Hni. rewrite He. apply in_or_app.
      destruct Hx as [->|[Hx|Hx]]; [left; auto|left; eapply ids_below; eauto|right; eapply ids_below; eauto].
  - assert (Hin' : x' = wrap_in id w y \/ In x' (preorder_list (wrap_from id w (r_kids y))) \/ In x' (preorder_list (wrap_from id w l))).
    { destruct y as [i k d sp kids]. cbn [wrap_in] in Hx |- *. apply in_pre_cons in Hx. exact Hx. }
    destruct Hin' as [->|[Hx'|Hx']].
    + right. exists y. split; [apply Hin; auto|]. destruct y as [i k d sp kids]. simpl. auto.
    + destruct (IH (r_kids y) ltac:(lia) Hn1 x' Hx') as [(o & s1 & y' & r & A & B)|(x & A & B)].
      * left. destruct A as [E|A].
        { injection E as <- E. exists (Some y), s1, y', r. split; auto. rewrite <- E. apply kids_sibling_list. apply Hin. auto. }
        exists o, s1, y', r. split; auto. right. apply in_map_iff in A as (q & E & Hq). apply in_map_iff. exists q. split; auto. apply Hin. auto.
      * right. exists x. split; auto. apply Hin. auto.
    + destruct (IH l ltac:(lia) Hn2 x' Hx') as [(o & s1 & y' & r & A & B)|(x & A & B)].
      * destruct A as [E|A].
        { injection E as <- ->. left. exists None, (y :: s1), y', r. simpl. split; auto. }
        left. exists o, s1, y', r. split; auto. right. apply in_map_iff in A as (q & E & Hq). apply in_map_iff. exists q. split; auto. apply Hin. auto.
      * right. exists x. split; auto. apply Hin. auto.
Qed.
Lemma wrap_old id n k0 d0 (g : rose T -> list (rose T) -> span) (w := fun x later => Nd n k0 d0 (g x later) (x :: later)) i : forall l, In i (ids l) -> In i (ids (wrap_from id w l)) .
Proof.
  assert (G : forall m l, size_l l <= m -> In i (ids l) -> In i (ids (wrap_from id w l))).
  { induction m as [|m IH]; intros [|[j k d sp kids] l] Hn Hi; try (destruct Hi; fail); rewrite size_l_cons, size_eq in Hn; cbn [r_kids] in Hn; [lia|].
    rewrite wrap_cons. cbn [r_id]. destruct (Nat.eqb j id).
    - unfold w. rewrite ids_cons, app_nil_r. simpl. auto.
    - cbn [wrap_in]. change (wrap_with (wrap_in id w) id w kids) with (wrap_from id w kids). rewrite ids_cons in Hi |- *. destruct Hi as [<-|Hi]; simpl; auto. right. rewrite !in_app_iff in *. destruct Hi as [Hi|Hi].
      + left. apply IH; auto. lia.
      + right. apply IH; auto. lia. }
  intros l. apply (G (size_l l)). auto.
Qed.
Lemma wrap_new id n k0 d0 (g : rose T -> list (rose T) -> span) (w := fun x later => Nd n k0 d0 (g x later) (x :: later)) : forall l, In id (ids l) -> In n (ids (wrap_from id w l)).
Proof.
  assert (G : forall m l, size_l l <= m -> In id (ids l) -> In n (ids (wrap_from id w l))).
  { induction m as [|m IH]; intros [|[j k d sp kids] l] Hn Hi; try (destruct Hi; fail); rewrite size_l_cons, size_eq in Hn; cbn [r_kids] in Hn; [lia|].
    rewrite wrap_cons. cbn [r_id]. destruct (Nat.eqb_spec j id) as [He|He].
    - unfold w. rewrite ids_cons. simpl. auto.
    - cbn [wrap_in]. change (wrap_with (wrap_in id w) id w kids) with (wrap_from id w kids). rewrite ids_cons in Hi |- *. destruct Hi as [Hi|Hi]; [congruence|]. right. rewrite !in_app_iff in *. destruct Hi as [Hi|Hi].
      + left. apply IH; auto. lia.
      + right. apply IH; auto. lia. }
  intros l. apply (G (size_l l)). auto.
Qed.
Lemma sees_row_ids (g : nat -> option (facts T)) o l : sees g o l -> forall l', sees g o l' -> map r_id l' = map r_id l.
Proof.
  induction 1 as [|i d sp f nx k kids rest E H1 IH1 H2 IH2]; intros l' H'; inversion H'; subst; auto. simpl.
  assert (nx0 = nx) as -> by congruence. f_equal. auto.
Qed.
Lemma row_ids l : forall i, In i (map r_id l) -> In i (ids l).
Proof. intros i Hi. apply in_map_iff in Hi as (x & <- & Hx). eapply ids_kids; eauto. Qed.

(** ** Positions decide who is inside whom *)
Section Table.
Variable ns : list (links T).
Variables lo hi cap : nat -> Q.
Hypothesis HT : table_inv ns lo hi cap.
Hypothesis HF1 : forall i (lk : links T) (y : nat), nth_error ns i = Some lk -> l_first lk = Some y -> exists ly, nth_error ns y = Some ly /\ l_parent ly = Some i.
Lemma sees_sides o l : sees (look ns) o l -> forall x q, In x (preorder_list l) -> In q (ids l) ->
  q = r_id x \/ In q (ids (r_kids x)) \/ (lo q < lo (r_id x))%Q \/ (hi (r_id x) < lo q)%Q.
Proof.
  induction 1 as [|i d sp f nx k kids rest E H1 IH1 H2 IH2]; intros x q Hx Hq; [destruct Hx|].
  destruct (look_node ns _ _ _ _ _ E) as (l & El & _ & _ & Ef & En). pose proof (HT _ _ El) as HI.
  pose proof (li_lo _ _ _ _ _ _ HI) as Lo. pose proof (li_hi _ _ _ _ _ _ HI) as Hi.
  rewrite ids_cons in Hq. simpl in Hq. rewrite in_app_iff in Hq.
  assert (K : forall j, In j (ids kids) -> (lo i < lo j)%Q /\ (hi j < hi i)%Q /\ (lo j < hi j)%Q).
  { intros j Hj. destruct f as [y|]; [|apply (sees_nil _ _ _) in H1; destruct H1 as [H1 _]; rewrite H1 in Hj by auto; destruct Hj].
    destruct (sees_range ns lo hi cap HT HF1 _ _ H1 y eq_refl j Hj) as [A B]. destruct (li_first _ _ _ _ _ _ HI y Ef) as (_ & C).
    destruct (HF1 _ _ _ El Ef) as (ly & Ey & Py). destruct (li_parent _ _ _ _ _ _ (HT _ _ Ey) i Py) as (_ & _ & D).
    pose proof (sees_known _ _ _ H1 j Hj) as G. apply look_some in G. destruct (nth_in _ _ G) as [lj Ej]. pose proof (li_lo _ _ _ _ _ _ (HT _ _ Ej)). split; [lra|split; lra]. }
  assert (R : forall j, In j (ids rest) -> (hi i < lo j)%Q).
  { intros j Hj. destruct nx as [y|]; [|apply (sees_nil _ _ _) in H2; destruct H2 as [H2 _]; rewrite H2 in Hj by auto; destruct Hj].
    destruct (sees_range ns lo hi cap HT HF1 _ _ H2 y eq_refl j Hj) as [A B]. destruct (li_next _ _ _ _ _ _ HI y En) as (_ & C & _). lra. }
  apply in_pre_cons in Hx as [->|[Hx|Hx]]; cbn [r_id r_kids].
  - destruct Hq as [<-|[Hq|Hq]]; auto.
  - pose proof (K _ (in_map r_id _ _ Hx)) as Kx. destruct Hq as [<-|[Hq|Hq]]; [right; right; left; apply Kx|auto|]. right; right; right. specialize (R _ Hq). lra.
  - pose proof (R _ (in_map r_id _ _ Hx)) as Rx. destruct Hq as [<-|[Hq|Hq]]; [right; right; left; lra| |auto]. right; right; left. specialize (K _ Hq). lra.
Qed.
End Table.

(** ** The invariant *)
Definition lasts_inside (s : shape T) (e : end_state) : Prop :=
  length (e_lasts e) = length (h_parents s) /\
  forall x, In x (preorder_list (h_forest s)) ->
    match nth_error (e_lasts e) (r_id x) with Some (Some z) => In z (ids (r_kids x)) | Some None => r_kids x = [] | None => False end.

Lemma inside_respan s e p f par o ls c sp ce ha : lasts_inside s e -> length par = length (h_parents s) ->
  lasts_inside (Shape (map (respan p f) (h_forest s)) par o ls c sp ce ha) e.
Proof.
  intros [HL H] Hp. split; [simpl; congruence|]. simpl h_forest. intros x' Hx. destruct (respan_images _ _ _ _ Hx) as (x & Hx0 & -> & ->). specialize (H x Hx0).
  destruct (nth_error (e_lasts e) (r_id x)) as [[z|]|]; auto; [rewrite respan_ids; auto|rewrite H; auto].
Qed.

Variable F : flavor.
Hypothesis HF : vec_flavor F.

(** Where the next node goes. *)
Definition good_spot (s : shape T) : Prop :=
  match hd_error (h_open s), h_last s with
  | Some p, Some q => exists x, In x (preorder_list (h_forest s)) /\ r_id x = p /\ In q (ids (r_kids x))
  | Some p, None => exists x, In x (preorder_list (h_forest s)) /\ r_id x = p
  | None, None => h_forest s = []
  | None, Some _ => True
  end.
Lemma spot_good w s : wplaced w -> csim (w_builder w) s -> good_spot s.
Proof.
  intros Hw HS. destruct (csim_ids _ _ Hw HS) as [_ Hids]. destruct Hw as [[Hok _] HP]. unfold good_spot.
  destruct (ok_stack _ _ _ Hok HS) as (lo & hi & cap & HB & _). pose proof (bi_table _ _ _ _ _ HB) as HT.
  assert (Fi : forall p, In p (ids (h_forest s)) -> exists x, In x (preorder_list (h_forest s)) /\ r_id x = p) by (intros p Hp; apply in_map_iff in Hp as (x & <- & Hx); eauto).
  destruct (hd_error (h_open s)) as [p|] eqn:Eo.
  - assert (Hp : In p (ids (h_forest s))).
    { apply Hids. apply (proj1 (ok_bounds _ _ Hok)). rewrite (cs_parent _ _ HS). auto. }
    destruct (Fi p Hp) as (x & Hx & Ex). destruct (h_last s) as [q|] eqn:El; [|eauto].
    exists x. split; auto. split; auto. rewrite <- (cs_sibling _ _ HS) in El.
    destruct (bi_sibling _ _ _ _ _ HB q El) as (_ & (lq & Eq & _) & G). destruct (G p) as [G1 G2]; [rewrite (cs_parent _ _ HS); auto|].
    assert (Hq : In q (ids (h_forest s))) by (apply Hids; eapply nth_lt; eauto).
    pose proof (li_lo _ _ _ _ _ _ (HT _ _ Eq)). pose proof (li_hi _ _ _ _ _ _ (HT _ _ Eq)).
    destruct (sees_sides _ lo hi cap HT) with (o := t_first (b_tree (w_builder w))) (l := h_forest s) (x := x) (q := q) as [A|[A|[A|A]]]; auto.
    + intros i lk y E Ef. assert (G3 : level_first (b_tree (w_builder w)) (Some i) = Some y) by (unfold level_first; rewrite E; auto).
      destruct (pl_first _ HP (Some i) y G3) as (ly & Ey & _ & Py). eauto.
    + apply (cs_sees _ _ HS).
    + subst q. rewrite Ex in *. lra.
    + rewrite Ex in A. lra.
    + rewrite Ex in A. lra.
  - destruct (h_last s) as [q|] eqn:El; auto. pose proof (cs_sees _ _ HS) as G.
    assert (G2 : t_first (b_tree (w_builder w)) = None).
    { pose proof (pl_sibling _ HP) as P. rewrite (cs_sibling _ _ HS), (cs_parent _ _ HS), Eo, El in P. apply P. auto. }
    rewrite G2 in G. inversion G. auto.
Qed.

Lemma inside_add d sp s e : NoDup (ids (h_forest s)) -> (forall i, In i (ids (h_forest s)) <-> i < length (h_parents s)) -> good_spot s ->
  lasts_inside s e -> lasts_inside (h_add d sp s) (e_add s (length (h_parents s)) e).
Proof.
  intros Hnd Hids Hg [HL H]. set (n := length (h_parents s)) in *.
  assert (Hpn : forall p, hd_error (h_open s) = Some p -> p < n).
  { intros p Hp. unfold good_spot in Hg. rewrite Hp in Hg. apply Hids. destruct (h_last s); destruct Hg as (x & Hx & <- & _) || destruct Hg as (x & Hx & <-); apply in_map; auto. }
  set (new := Nd n KLeaf d sp []).
  set (forest := match h_last s, h_open s with Some q, _ => flat_map (after_in q new) (h_forest s) | None, p :: _ => map (into p new) (h_forest s) | None, [] => h_forest s ++ [new] end).
  assert (HL' : length (e_lasts (e_add s n e)) = S n) by (unfold e_add; destruct (hd_error (h_open s)); simpl; rewrite ?length_upd, app_length, HL; simpl; lia).
  (* the lasts afterwards *)
  assert (N1 : nth_error (e_lasts (e_add s n e)) n = Some None).
  { unfold e_add. destruct (hd_error (h_open s)) as [p|] eqn:Eo; simpl.
    - rewrite nth_upd. specialize (Hpn p eq_refl). destruct (Nat.eqb_spec p n); [lia|]. rewrite nth_error_app2; rewrite HL; auto. fold n. rewrite Nat.sub_diag. auto.
    - rewrite nth_error_app2; rewrite HL; auto. fold n. rewrite Nat.sub_diag. auto. }
  assert (N2 : forall i, i < n -> nth_error (e_lasts (e_add s n e)) i = if opt_nat_eqb (hd_error (h_open s)) (Some i) then Some (Some n) else nth_error (e_lasts e) i).
  { intros i Hi. unfold e_add. destruct (hd_error (h_open s)) as [p|] eqn:Eo; simpl.
    - rewrite nth_upd. rewrite nth_error_app1 by (rewrite HL; auto). unfold opt_nat_eqb. destruct (Nat.eqb p i); auto. destruct (nth_in (e_lasts e) i) as [o Eq]; [rewrite HL; auto|]. rewrite Eq. auto.
    - rewrite nth_error_app1 by (rewrite HL; auto). auto. }
  (* the forest *)
  assert (M : forall x', In x' (preorder_list forest) -> match nth_error (e_lasts (e_add s n e)) (r_id x') with Some (Some z) => In z (ids (r_kids x')) | Some None => r_kids x' = [] | None => False end).
  { intros x' Hx'.
    assert (G : x' = new \/ exists x, In x (preorder_list (h_forest s)) /\ r_id x' = r_id x /\ (forall i, In i (ids (r_kids x)) -> In i (ids (r_kids x'))) /\
        (hd_error (h_open s) = Some (r_id x) -> In n (ids (r_kids x'))) /\ (r_kids x = [] -> hd_error (h_open s) <> Some (r_id x) -> r_kids x' = [])).
    { unfold forest in Hx'. unfold good_spot in Hg. destruct (h_last s) as [q|] eqn:El.
      - destruct (after_images q new eq_refl _ _ Hx') as [->|(x & Hx & E1 & E2)]; auto. right. exists x. split; auto. split; auto. rewrite E2. split; [intros i Hi; apply after_old; auto|]. split.
        + intros Ho. rewrite Ho in Hg. destruct Hg as (x0 & Hx0 & Ex0 & Hq). apply (after_new q new).
          enough (x0 = x) by congruence. clear -Hnd Hx Hx0 Ex0. revert Hnd Hx Hx0. induction (preorder_list (h_forest s)) as [|u v IH]; [simpl; tauto|].
          simpl. intros Hnd. inversion Hnd as [|? ? Hni Hnd']; subst. intros [->|Hx] [->|Hx0]; auto; exfalso; apply Hni; [rewrite <- Ex0|rewrite Ex0]; apply in_map; auto.
        + intros Hk _. rewrite Hk. auto.
      - destruct (h_open s) as [|p r] eqn:Eo.
        + simpl in Hg. rewrite Hg in Hx'. simpl in Hx'. destruct Hx' as [<-|[]]. auto.
        + destruct (into_images p new eq_refl _ _ Hx') as [->|(x & Hx & E1 & E2)]; auto. right. exists x. split; auto. split; auto. rewrite E2. split; [intros i Hi; rewrite ids_app; apply in_or_app; left; apply into_old; auto|]. split.
          * intros Ho. simpl in Ho. injection Ho as ->. rewrite Nat.eqb_refl, ids_app. apply in_or_app. right. simpl. auto.
          * intros Hk Hne. rewrite Hk. simpl. destruct (Nat.eqb_spec (r_id x) p) as [He|He]; auto. exfalso. apply Hne. simpl. congruence. }
    destruct G as [->|(x & Hx & E1 & G1 & G2 & G3)].
    - simpl r_id. rewrite N1. auto.
    - rewrite E1. assert (Hi : r_id x < n) by (apply Hids; apply in_map; auto). rewrite (N2 _ Hi). destruct (opt_nat_eqb (hd_error (h_open s)) (Some (r_id x))) eqn:Eq.
      + apply opt_eqb in Eq. auto.
      + specialize (H x Hx). destruct (nth_error (e_lasts e) (r_id x)) as [[z|]|]; auto. apply G3; auto. intros Hc. rewrite Hc, opt_eqb_refl in Eq. discriminate. }
  assert (S0 : lasts_inside (Shape forest (h_parents s ++ [hd_error (h_open s)]) (h_open s) (Some n) (h_cursor s) (h_span s) (h_cells s) (h_handles s)) (e_add s n e)).
  { split; [rewrite HL'; simpl; rewrite app_length; simpl; fold n; lia|exact M]. }
  unfold h_add. fold n new forest. cbv zeta. unfold respan_level. cbn [h_open h_forest h_parents h_last h_cursor h_span h_cells h_handles].
  destruct (h_open s) as [|p r]; [exact S0|]. apply (inside_respan _ _ p _ _ _ _ _ _ _ _ S0). auto.
Qed.

Lemma inside_parts s e e' : lasts_inside s e -> e_lasts e' = e_lasts e -> lasts_inside s e'.
Proof. intros [A B] E. unfold lasts_inside. rewrite E. auto. Qed.
Lemma inside_forest s s' e : lasts_inside s e -> h_forest s' = h_forest s -> h_parents s' = h_parents s -> lasts_inside s' e.
Proof. intros [A B] E E'. unfold lasts_inside. rewrite E, E'. auto. Qed.
Lemma inside_widen sp s e : lasts_inside s e -> lasts_inside (h_widen sp s) e.
Proof.
  intros H. unfold h_widen, respan_level. destruct (h_open s) as [|p r]; [eapply inside_forest; eauto|]. apply inside_respan; auto.
Qed.
Lemma note_lasts sh (o : op T) n e : e_lasts (e_note F sh o n e) = e_lasts e.
Proof. unfold e_note. destruct (fl_indexes F), o; auto. destruct (len_is_empty F len); auto. Qed.

Lemma inside_wrap s e g id X later d osp : sees g (hd_error (map r_id (h_forest s))) (h_forest s) -> NoDup (ids (h_forest s)) -> (forall i, In i (ids (h_forest s)) <-> i < length (h_parents s)) ->
  run_at id (h_forest s) = Some (X, later) -> lasts_inside s e ->
  let n := length (h_parents s) in
  forall par o ls c sp ce ha, length par = S n ->
  lasts_inside (Shape (wrap_from id (fun x later => Nd n KWrap d (match osp with Some sp => sp | None => run_span x later end) (x :: later)) (h_forest s)) par o ls c sp ce ha) (e_wrap s X later n e).
Proof.
  intros HG Hnd Hids Er [HL H] n par o ls c sp ce ha Hpar. pose proof (run_at_spec _ _ _ id HG) as R. rewrite Er in R. destruct R as (R1 & R2 & R3).
  set (lasts := match nth_error (h_parents s) (r_id X) with Some (Some p) => upd (e_lasts e) p (fun o => if opt_nat_eqb o (Some (r_id X)) then Some n else o) | _ => e_lasts e end).
  assert (HL' : length lasts = n) by (unfold lasts; destruct (nth_error (h_parents s) (r_id X)) as [[p|]|]; rewrite ?length_upd; auto).
  assert (N2 : forall i, nth_error lasts i = nth_error (e_lasts e) i \/ nth_error (e_lasts e) i = Some (Some id) /\ nth_error lasts i = Some (Some n)).
  { intros i. unfold lasts. destruct (nth_error (h_parents s) (r_id X)) as [[p|]|]; auto. rewrite nth_upd. destruct (Nat.eqb p i); auto.
    destruct (nth_error (e_lasts e) i) as [[z|]|]; unfold opt_nat_eqb; simpl; auto. destruct (Nat.eqb_spec z (r_id X)) as [->|]; auto. right. rewrite R1. auto. }
  split; [unfold e_wrap; fold n lasts; simpl; rewrite app_length, HL', Hpar; simpl; lia|].
  intros x' Hx'. simpl h_forest in Hx'. unfold e_wrap. fold n lasts. cbn [e_lasts].
  destruct (wrap_images id n KWrap d (fun x later => match osp with Some sp => sp | None => run_span x later end) (size_l (h_forest s)) _ (le_n _) Hnd _ Hx') as [(o' & s1 & y & r & A & B & C & D)|(x & Hx & E1 & E2)].
  - rewrite C, nth_error_app2; rewrite HL'; auto. rewrite Nat.sub_diag. simpl. rewrite D. apply row_ids.
    destruct (sees_siblings _ _ _ HG _ _ A) as (o2 & S2). apply sees_tail in S2. rewrite B in S2. rewrite (sees_row_ids _ _ _ R2 _ S2). apply in_map.
    clear. revert X. induction later as [|u v IH]; intros X; [simpl; auto|]. rewrite last_shift. right. apply IH.
  - assert (Hi : r_id x < n) by (apply Hids; apply in_map; auto). rewrite E1, nth_error_app1 by (rewrite HL'; auto). specialize (H x Hx).
    assert (Old : forall i, In i (ids (r_kids x)) -> In i (ids (r_kids x'))) by (intros i Hin; destruct E2 as [-> | [-> _]]; auto; apply wrap_old; auto).
    destruct (N2 (r_id x)) as [-> | [N N']].
    + destruct (nth_error (e_lasts e) (r_id x)) as [[z|]|]; auto. destruct E2 as [-> | [-> _]]; auto. rewrite H. auto.
    + rewrite N'. rewrite N in H. destruct E2 as [-> | [_ E2]]; [|tauto]. apply wrap_new. auto.
Qed.

Lemma inside_step w s o : wplaced w -> sim w s -> lasts_inside s (ends_of (b_tree (w_builder w))) ->
  let '(s', r) := h_step F s o in lasts_inside s' (e_step F s o s' r (ends_of (b_tree (w_builder w)))).
Proof.
  intros Hw HS0 H. pose proof (sm_core _ _ HS0) as HS. destruct (csim_ids _ _ Hw HS) as [Hnd Hids0]. pose proof (spot_good _ _ Hw HS) as Hg.
  assert (Hids : forall i, In i (ids (h_forest s)) <-> i < length (h_parents s)) by (intros i; rewrite (cs_len _ _ HS); apply Hids0). clear Hids0.
  set (e := ends_of (b_tree (w_builder w))) in *.
  assert (A : forall d sp, lasts_inside (h_add d sp s) (e_add s (length (h_parents s)) e)) by (intros; apply inside_add; auto).
  assert (CA : forall k d osp (o : op T), (match o with OCloseAt k' _ => k' = k | OCloseAtWith k' _ _ => k' = k | _ => False end) -> let '(s', r) := h_close_at F k d osp s in lasts_inside s' (e_step F s o s' r e)).
  { intros k d osp o0 Ho. assert (Er : run_of s o0 = match nth_error (h_handles s) k with Some a => match nth_error (h_cells s) a with Some (id, _) => run_at id (h_forest s) | None => None end | None => None end) by (destruct o0; try tauto; subst; auto).
    unfold h_close_at. destruct (nth_error (h_handles s) k) as [a|]; [|exact H]. destruct (nth_error (h_cells s) a) as [[id lv]|]; [|exact H].
    destruct (negb _); [exact H|]. destruct (h_full F s); [exact H|]. destruct (run_at id (h_forest s)) as [[X later]|] eqn:ER.
    - unfold e_step. rewrite Er. eapply inside_parts; [|apply note_lasts]. eapply inside_wrap; eauto.
      + pose proof (cs_sees _ _ HS) as G. replace (hd_error (map r_id (h_forest s))) with (t_first (b_tree (w_builder w))); [exact G|]. inversion G; auto.
      + rewrite app_length, fold_upd_length. simpl. lia.
    - unfold e_step. rewrite Er. eapply inside_parts; [|apply note_lasts]. apply A. }
  destruct o; cbn [h_step].
  - unfold h_open_with. destruct (h_full F s); [exact H|]. unfold e_step. cbn [run_of]. eapply inside_parts; [|apply note_lasts]. eapply inside_forest; [apply A|..]; reflexivity.
  - unfold h_open_with. destruct (h_full F s); [exact H|]. unfold e_step. cbn [run_of]. eapply inside_parts; [|apply note_lasts]. eapply inside_forest; [apply A|..]; reflexivity.
  - unfold h_close. destruct (h_open s) as [|p up]; [exact H|]. destruct (find _ _); [|exact H]. unfold e_step. unfold h_move.
    set (s1 := Shape (h_forest s) (h_parents s) up (Some p) (h_cursor s) (h_span s) (h_cells s) (h_handles s)).
    assert (H1 : lasts_inside s1 e) by (eapply inside_forest; [exact H|..]; reflexivity). eapply inside_forest; [eapply (inside_widen _ s1 e H1)|..]; reflexivity.
  - unfold h_token. destruct (len_is_empty F len).
    + destruct (h_full F s); [exact H|]. unfold e_step. cbn [run_of]. eapply inside_parts; [|apply note_lasts]. apply A.
    + destruct (ix_checked_add_len F (h_cursor s) len) as [c|]; [|exact H]. destruct (h_full F s); [eapply inside_forest; [exact H|..]; reflexivity|].
      unfold e_step. cbn [run_of]. eapply inside_parts; [|apply note_lasts]. eapply inside_forest; [apply (A d (Span (h_cursor s) c))|..]; reflexivity.
  - unfold h_token. destruct (len_is_empty F 0).
    + destruct (h_full F s); [exact H|]. unfold e_step. cbn [run_of]. eapply inside_parts; [|apply note_lasts]. apply A.
    + destruct (ix_checked_add_len F (h_cursor s) 0) as [c|]; [|exact H]. destruct (h_full F s); [eapply inside_forest; [exact H|..]; reflexivity|].
      unfold e_step. cbn [run_of]. eapply inside_parts; [|apply note_lasts]. eapply inside_forest; [apply (A d (Span (h_cursor s) c))|..]; reflexivity.
  - unfold h_token_with. destruct (h_full F s); [exact H|]. unfold e_step. cbn [run_of]. eapply inside_parts; [|apply note_lasts].
    eapply inside_forest; [eapply inside_widen; apply (A d sp)|..]; reflexivity.
  - unfold h_checkpoint. destruct (h_full F s); [exact H|]. cbv zeta. destruct (last_error (h_cells s)) as [[i o]|]; [destruct (_ && _)|]; eapply inside_forest; [exact H|..]; reflexivity || (try exact H; reflexivity).
  - apply CA. auto.
  - apply CA. auto.
  - eapply inside_forest; [exact H|..]; reflexivity.
Qed.

Lemma inside_run ops : forall w s, wplaced w -> sim w s -> lasts_inside s (ends_of (b_tree (w_builder w))) ->
  lasts_inside (fst (h_run F s ops)) (ends_of (b_tree (w_builder (fst (run F w ops))))).
Proof.
  induction ops as [|o ops IH]; intros w s Hw HS H; simpl; auto.
  pose proof (step_sim F HF w s o Hw HS) as A. pose proof (step_ends F HF w s o Hw HS) as B. pose proof (inside_step w s o Hw HS H) as C.
  assert (Hw1 : wplaced (fst (step F w o))) by (split; [apply step_ok; auto; apply Hw|apply step_placed; auto]).
  destruct (step F w o) as [w1 r1]. destruct (h_step F s o) as [s1 r1']. destruct A as [-> A]. simpl in Hw1, B. rewrite <- B in C. specialize (IH w1 s1 Hw1 A C).
  destruct (run F w1 ops) as [w2 rs]. destruct (h_run F s1 ops) as [s2 rs']. exact IH.
Qed.
End Inside.
