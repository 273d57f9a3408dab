(** All loops of the library end on every tree that satisfies the invariant of AllHist.v. *)
From Coq Require Import Lia QArith Lqa.
From Verif Require Import Base Pointer Index Tree Builder Hist Node Iter Query Spec Rep Refine Enum AllHist.
Open Scope nat_scope.

(** Any iterator with a measure ends. *)
Lemma enum_exists {S A} (nxt : S -> result (S * option A)) (inv : S -> Prop) (m : S -> nat) :
  (forall s, inv s -> exists s' o, nxt s = Ok (s', o) /\
     match o with None => enumerates nxt s' [] | Some _ => inv s' /\ m s' < m s end) ->
  forall s, inv s -> exists items, enumerates nxt s items /\ length items <= m s.
Proof.
  intros H. assert (G : forall k s, m s <= k -> inv s -> exists items, enumerates nxt s items /\ length items <= m s).
  2:{ intros s Hs. eapply G; eauto. }
  induction k as [|k IH]; intros s Hk Hs; destruct (H s Hs) as (s' & [a|] & E & G).
  - destruct G. lia.
  - exists []. split; [|simpl; lia]. apply enumerates_nil. eauto.
  - destruct G as [G1 G2]. destruct (IH s') as (items & HE & HL); [lia|auto|].
    exists (a :: items). split; [|simpl; lia]. apply enumerates_cons. eauto.
  - exists []. split; [|simpl; lia]. apply enumerates_nil. eauto.
Qed.

Lemma fixed {S A} (nxt : S -> result (S * option A)) s : nxt s = Ok (s, None) -> enumerates nxt s [].
Proof.
  intros H. apply (enumerates_stuck nxt (fun x => x = s)); auto. intros x ->. eauto.
Qed.

Definition count (ks : list Q) (q : Q) : nat := length (filter (fun k => Qle_bool q k) ks).

Lemma count_le ks q q' : (q <= q')%Q -> count ks q' <= count ks q.
Proof.
  intros H. unfold count. induction ks as [|k ks IH]; simpl; auto.
  destruct (Qle_bool q' k) eqn:E', (Qle_bool q k) eqn:E; simpl; try lia.
  apply Qle_bool_iff in E'. assert (G : (q <= k)%Q) by lra. apply Qle_bool_iff in G. congruence.
Qed.

Lemma count_lt ks q q' k : In k ks -> (q <= k)%Q -> (k < q')%Q -> count ks q' < count ks q.
Proof.
  intros Hin H1 H2. induction ks as [|k0 ks IH]; [destruct Hin|]. simpl in Hin.
  assert (G : count ks q' <= count ks q) by (apply count_le; lra).
  unfold count in *. simpl. destruct Hin as [->|Hin].
  - apply Qle_bool_iff in H1. rewrite H1. destruct (Qle_bool q' k) eqn:E; simpl; [|lia].
    apply Qle_bool_iff in E. lra.
  - specialize (IH Hin). destruct (Qle_bool q' k0) eqn:E', (Qle_bool q k0) eqn:E; simpl; try lia.
    apply Qle_bool_iff in E'. assert (G2 : (q <= k0)%Q) by lra. apply Qle_bool_iff in G2. congruence.
Qed.

Lemma count_all ks q : count ks q <= length ks.
Proof.
  unfold count. induction ks as [|k ks IH]; simpl; auto. destruct (Qle_bool q k); simpl; lia.
Qed.

Section AllWalk.
Context {T : Type}.
Variable F : flavor.
Variable ns : list (links T).
Variables lo hi cap : nat -> Q.
Hypothesis HT : table_inv ns lo hi cap.
Implicit Types (l : links T).

Let n := length ns.
Definition los : list Q := map lo (seq 0 n).
Definition his : list Q := map hi (seq 0 n).
Lemma in_los i : i < n -> In (lo i) los.
Proof. intros H. apply in_map, in_seq. lia. Qed.
Lemma in_his i : i < n -> In (hi i) his.
Proof. intros H. apply in_map, in_seq. lia. Qed.
Lemma los_len : length los = n.
Proof. unfold los. rewrite map_length, seq_length. auto. Qed.
Lemma his_len : length his = n.
Proof. unfold his. rewrite map_length, seq_length. auto. Qed.

Definition key (i : nat) (e : event) : Q := match e with Up => hi i | _ => lo i end.

Lemma step_key i l e d d' j e' : nth_error ns i = Some l -> walk_step F l e d = (d', Some (j, e')) ->
  j < n /\ (key i e < key j e')%Q.
Proof.
  intros E H. pose proof (HT _ _ E) as HI. pose proof (li_lo _ _ _ _ _ _ HI). pose proof (li_hi _ _ _ _ _ _ HI).
  assert (Hup : (match isize_dec F d with
    | None => (d, None)
    | Some d => (d, match l_parent l with Some p => Some (p, Up) | None => None end)
    end) = (d', Some (j, e')) -> j < n /\ (hi i < key j e')%Q).
  { destruct (isize_dec F d); [|discriminate]. destruct (l_parent l) as [p|] eqn:Ep; [|discriminate].
    intros G. assert (j = p /\ e' = Up) as [-> ->] by (split; congruence).
    destruct (li_parent _ _ _ _ _ _ HI p Ep) as (A & B & D). simpl. split; [auto|lra]. }
  assert (Hnx : (match l_next l with
    | Some n => (d, Some (n, Next))
    | None => (match isize_dec F d with
    | None => (d, None)
    | Some d => (d, match l_parent l with Some p => Some (p, Up) | None => None end)
    end)
    end) = (d', Some (j, e')) -> j < n /\ (hi i < key j e')%Q).
  { destruct (l_next l) as [y|] eqn:En; [|exact Hup].
    intros G. assert (j = y /\ e' = Next) as [-> ->] by (split; congruence).
    destruct (li_next _ _ _ _ _ _ HI y En) as (A & B & D & ly & Ey & _). simpl. split; [|auto].
    eapply nth_lt; eauto. }
  assert (Hen : match l_first l with
    | Some first =>
      match isize_inc F d with
      | None => (d, None)
      | Some d => (d, Some (first, Down))
      end
    | None => (match l_next l with
    | Some n => (d, Some (n, Next))
    | None => (match isize_dec F d with
    | None => (d, None)
    | Some d => (d, match l_parent l with Some p => Some (p, Up) | None => None end)
    end)
    end) end = (d', Some (j, e')) -> j < n /\ (lo i < key j e')%Q).
  { destruct (l_first l) as [f|] eqn:Ef.
    - destruct (isize_inc F d); [|discriminate]. intros G. assert (j = f /\ e' = Down) as [-> ->] by (split; congruence).
      destruct (li_first _ _ _ _ _ _ HI f Ef) as (A & B). simpl. auto.
    - intros G. destruct (Hnx G). split; [auto|lra]. }
  destruct e; simpl in *; auto.
Qed.

Definition winv (w : walk_it) : Prop := match wk_node w with Some (i, _) => i < n | None => True end.

(** A measure that decreases with every step: [lo] keys ahead, all keys ahead. *)
Definition mlo (w : walk_it) : nat := match wk_node w with Some (i, e) => count los (key i e) | None => 0 end.
Definition mev (w : walk_it) : nat :=
  match wk_node w with Some (i, e) => count los (key i e) + count his (key i e) | None => 0 end.
Definition mhi (w : walk_it) : nat := match wk_node w with Some (i, Up) => count his (hi i) | _ => 0 end.

Lemma walk_events_cases w : winv w ->
  (wk_node w = None /\ walk_events_next F ns w = (w, None)) \/
  exists i l e w', wk_node w = Some (i, e) /\ nth_error ns i = Some l /\
    walk_events_next F ns w = (w', Some (e, (i, l))) /\ winv w' /\
    (forall j e', wk_node w' = Some (j, e') -> (key i e < key j e')%Q).
Proof.
  unfold winv, walk_events_next. destruct w as [[[i e]|] d]; simpl; intros H; [right|left; auto].
  destruct (nth_in ns i H) as [l E]. rewrite E. destruct (walk_step F l e d) as [d' pos] eqn:Es.
  exists i, l, e. eexists. split; [reflexivity|]. split; [auto|]. split; [reflexivity|]. simpl. split.
  - destruct pos as [[j e']|]; auto. eapply step_key; eauto.
  - intros j e' ->. eapply step_key; eauto.
Qed.

Lemma stuck w : wk_node w = None -> enumerates (total (walk_events_next F ns)) w [].
Proof.
  intros H. apply fixed. unfold total, walk_events_next. rewrite H. auto.
Qed.

Lemma mlo_n w : mlo w <= n.
Proof.
  unfold mlo. destruct (wk_node w) as [[i e]|]; [|lia]. rewrite <- los_len. apply count_all.
Qed.
Lemma mev_n w : mev w <= 2 * n.
Proof.
  unfold mev. destruct (wk_node w) as [[i e]|]; [|lia].
  pose proof (count_all los (key i e)). pose proof (count_all his (key i e)).
  rewrite los_len in *. rewrite his_len in *. lia.
Qed.

Lemma events_end w : winv w -> exists items,
  enumerates (total (walk_events_next F ns)) w items /\ length items <= 2 * n.
Proof.
  intros Hw. destruct (enum_exists (total (walk_events_next F ns)) winv mev) with (s := w) as (items & A & B); auto.
  2:{ exists items. split; auto. pose proof (mev_n w). lia. }
  clear w Hw. intros w Hw. unfold total. destruct (walk_events_cases w Hw) as [[E ->]|(i & l & e & w' & E & El & -> & Hw' & Hk)].
  - eexists. eexists. split; [reflexivity|]. apply stuck; auto.
  - eexists. eexists. split; [reflexivity|]. split; auto. unfold mev. rewrite E.
    assert (Hi : i < n) by (eapply nth_lt; eauto).
    destruct (wk_node w') as [[j e']|] eqn:Ew.
    + specialize (Hk j e' eq_refl).
      pose proof (count_le los (key i e) (key j e') ltac:(lra)).
      pose proof (count_le his (key i e) (key j e') ltac:(lra)).
      destruct e; simpl key in *.
      * assert (count los (key j e') < count los (lo i)) by (eapply count_lt; [apply in_los; eauto| |]; lra). lia.
      * assert (count los (key j e') < count los (lo i)) by (eapply count_lt; [apply in_los; eauto| |]; lra). lia.
      * assert (count his (key j e') < count his (hi i)) by (eapply count_lt; [apply in_his; eauto| |]; lra). lia.
    + assert (H1 : 0 < count los (lo i)).
      { assert (count los (lo i + 1)%Q < count los (lo i)) by (eapply count_lt; [apply in_los; eauto| |]; lra). lia. }
      assert (H2 : 0 < count his (hi i)).
      { assert (count his (hi i + 1)%Q < count his (hi i)) by (eapply count_lt; [apply in_his; eauto| |]; lra). lia. }
      destruct e; simpl; lia.
Qed.

(** One call of a loop over events: it returns, and either nothing is left or the measure went down. *)
Lemma mhi_step w i l w' j : nth_error ns i = Some l -> wk_node w = Some (i, Up) -> wk_node w' = Some (j, Up) ->
  (hi i < hi j)%Q -> mhi w' < mhi w.
Proof.
  intros E Ew Ew' Hk. unfold mhi. rewrite Ew, Ew'. eapply count_lt; [apply in_his; eapply nth_lt; eauto| |]; lra.
Qed.

Lemma up_step w : winv w -> forall w' m, walk_events_next F ns w = (w', Some (Up, m)) ->
  winv w' /\ mlo w' <= mlo w /\ mhi w' < mhi w.
Proof.
  intros Hw w' m E. destruct (walk_events_cases w Hw) as [[E1 E2]|(i & l & e & w1 & E1 & El & E2 & Hw' & Hk)];
    rewrite E2 in E; [discriminate|].
  assert (w1 = w' /\ e = Up) as [-> ->] by (split; congruence). split; auto.
  assert (Hi : i < n) by (eapply nth_lt; eauto).
  assert (H2 : 0 < count his (hi i)).
  { assert (count his (hi i + 1)%Q < count his (hi i)) by (eapply count_lt; [apply in_his; eauto| |]; lra). lia. }
  unfold mlo, mhi. rewrite E1. destruct (wk_node w') as [[j e']|] eqn:Ew; [|split; lia].
  specialize (Hk j e' eq_refl). simpl in Hk. split; [apply count_le; simpl; lra|].
  destruct e'; auto. eapply count_lt; [apply in_his; eauto| |]; simpl in Hk; lra.
Qed.

Lemma enter_step w : winv w -> forall w' e m, walk_events_next F ns w = (w', Some (e, m)) -> e <> Up ->
  winv w' /\ mlo w' < mlo w.
Proof.
  intros Hw w' e0 m E He. destruct (walk_events_cases w Hw) as [[E1 E2]|(i & l & e & w1 & E1 & El & E2 & Hw' & Hk)];
    rewrite E2 in E; [discriminate|].
  assert (w1 = w' /\ e = e0) as [-> ->] by (split; congruence). split; auto.
  assert (Hi : i < n) by (eapply nth_lt; eauto).
  assert (H2 : 0 < count los (lo i)).
  { assert (count los (lo i + 1)%Q < count los (lo i)) by (eapply count_lt; [apply in_los; eauto| |]; lra). lia. }
  unfold mlo. rewrite E1. destruct (wk_node w') as [[j e']|] eqn:Ew.
  - specialize (Hk j e' eq_refl). destruct e0; simpl key in *; try congruence;
      (eapply count_lt; [apply in_los; eauto| |]; lra).
  - destruct e0; simpl key; auto; congruence.
Qed.

Lemma none_step w : winv w -> forall w', walk_events_next F ns w = (w', None) -> wk_node w' = None.
Proof.
  intros Hw w' E. destruct (walk_events_cases w Hw) as [[E1 E2]|(i & l & e & w1 & E1 & El & E2 & Hw' & Hk)];
    rewrite E2 in E; [congruence|discriminate].
Qed.

Lemma mhi_n w : mhi w <= n.
Proof.
  unfold mhi. destruct (wk_node w) as [[i []]|]; try lia. rewrite <- his_len. apply count_all.
Qed.

Lemma walk_loop_ends : forall fuel w, winv w -> mhi w < fuel -> exists w' o, walk_loop fuel F ns w = Ok (w', o) /\
  match o with None => wk_node w' = None | Some _ => winv w' /\ mlo w' < mlo w end.
Proof.
  induction fuel as [|fuel IH]; intros w Hw Hf; [lia|]. simpl.
  destruct (walk_events_next F ns w) as [w1 [[e m]|]] eqn:E.
  2:{ eexists. eexists. split; [reflexivity|]. eapply none_step; eauto. }
  destruct e.
  - eexists. eexists. split; [reflexivity|]. eapply enter_step; eauto. discriminate.
  - eexists. eexists. split; [reflexivity|]. eapply enter_step; eauto. discriminate.
  - destruct (up_step w Hw w1 m E) as (A & B & D). destruct (IH w1 A) as (w' & o & E' & G); [lia|].
    rewrite E'. eexists. eexists. split; [reflexivity|]. destruct o; auto. destruct G. split; [auto|lia].
Qed.

Lemma walk_ends w : winv w -> exists items, enumerates (walk_next F ns) w items /\ length items <= n.
Proof.
  intros Hw. destruct (enum_exists (walk_next F ns) winv mlo) with (s := w) as (items & A & B); auto.
  2:{ exists items. split; auto. pose proof (mlo_n w). lia. }
  clear w Hw. intros w Hw. unfold walk_next. destruct (walk_loop_ends (loop_fuel ns) w Hw) as (w' & o & E & G).
  { unfold loop_fuel. pose proof (mhi_n w). fold n. lia. }
  exists w', o. split; auto. destruct o; auto. apply fixed. unfold walk_events_next. simpl. unfold walk_events_next. rewrite G. auto.
Qed.

Lemma depths_loop_ends : forall fuel w, winv w -> mhi w < fuel -> exists w' o, walk_depths_loop fuel F ns w = Ok (w', o) /\
  match o with None => wk_node w' = None | Some _ => winv w' /\ mlo w' < mlo w end.
Proof.
  induction fuel as [|fuel IH]; intros w Hw Hf; [lia|]. simpl.
  destruct (walk_events_next F ns w) as [w1 [[e m]|]] eqn:E.
  2:{ eexists. eexists. split; [reflexivity|]. eapply none_step; eauto. }
  destruct e.
  - eexists. eexists. split; [reflexivity|]. eapply enter_step; eauto. discriminate.
  - eexists. eexists. split; [reflexivity|]. eapply enter_step; eauto. discriminate.
  - destruct (up_step w Hw w1 m E) as (A & B & D). destruct (IH w1 A) as (w' & o & E' & G); [lia|].
    rewrite E'. eexists. eexists. split; [reflexivity|]. destruct o; auto. destruct G. split; [auto|lia].
Qed.

Lemma depths_end w : winv w -> exists items, enumerates (walk_depths_next F ns) w items /\ length items <= n.
Proof.
  intros Hw. destruct (enum_exists (walk_depths_next F ns) winv mlo) with (s := w) as (items & A & B); auto.
  2:{ exists items. split; auto. pose proof (mlo_n w). lia. }
  clear w Hw. intros w Hw. unfold walk_depths_next. destruct (depths_loop_ends (loop_fuel ns) w Hw) as (w' & o & E & G).
  { unfold loop_fuel. pose proof (mhi_n w). fold n. lia. }
  exists w', o. split; auto. destruct o; auto. apply fixed. simpl. unfold walk_events_next. rewrite G. auto.
Qed.

Lemma inside_loop_ends : forall fuel w, winv w -> mhi w < fuel -> exists w' o, inside_loop fuel F ns w = Ok (w', o) /\
  match o with None => wk_node w' = None | Some _ => winv w' /\ mlo w' < mlo w end.
Proof.
  induction fuel as [|fuel IH]; intros w Hw Hf; [lia|]. simpl.
  destruct (walk_events_next F ns w) as [w1 [[e m]|]] eqn:E.
  2:{ eexists. eexists. split; [reflexivity|]. eapply none_step; eauto. }
  assert (He : e <> Up -> winv (if (wk_depth w1 <=? 0)%Z then walk_default else w1) /\
                          mlo (if (wk_depth w1 <=? 0)%Z then walk_default else w1) < mlo w).
  { intros Hne. destruct (enter_step w Hw w1 e m E Hne) as [A B]. destruct (_ <=? _)%Z; [|auto].
    split; [exact I|]. unfold mlo at 1. simpl. lia. }
  destruct e.
  - eexists. eexists. split; [reflexivity|]. apply He. discriminate.
  - eexists. eexists. split; [reflexivity|]. apply He. discriminate.
  - destruct (up_step w Hw w1 m E) as (A & B & D).
    destruct (IH (if (wk_depth w1 <=? 0)%Z then walk_default else w1)) as (w' & o & E' & G).
    { destruct (_ <=? _)%Z; [exact I|auto]. }
    { destruct (_ <=? _)%Z; [unfold mhi; simpl; lia|lia]. }
    rewrite E'. eexists. eexists. split; [reflexivity|]. destruct o; auto. destruct G as [G1 G2]. split; [auto|].
    destruct (_ <=? _)%Z; [|lia]. unfold mlo in G2 at 2. simpl in G2. lia.
Qed.

Lemma inside_ends w : winv w -> exists items, enumerates (inside_next F ns) w items /\ length items <= n.
Proof.
  intros Hw. destruct (enum_exists (inside_next F ns) winv mlo) with (s := w) as (items & A & B); auto.
  2:{ exists items. split; auto. pose proof (mlo_n w). lia. }
  clear w Hw. intros w Hw. unfold inside_next. destruct (inside_loop_ends (loop_fuel ns) w Hw) as (w' & o & E & G).
  { unfold loop_fuel. pose proof (mhi_n w). fold n. lia. }
  exists w', o. split; auto. destruct o; auto. apply fixed. simpl. unfold walk_events_next. rewrite G. auto.
Qed.

(** ** Siblings, ancestors, children *)
Definition at_ (x : option (node T)) : Prop :=
  match x with Some (i, l) => nth_error ns i = Some l | None => True end.

Lemma node_opt_at o : at_ (node_opt ns o).
Proof.
  destruct o as [i|]; simpl; auto. unfold node_at. destruct (nth_error ns i) eqn:E; simpl; auto.
Qed.

Lemma siblings_end s : at_ s -> exists items, enumerates (total (siblings_next ns)) s items /\ length items <= n.
Proof.
  intros Hs. destruct (enum_exists (total (siblings_next ns)) at_
     (fun s => match s with Some (i, _) => n - i | None => 0 end)) with (s := s) as (items & A & B); auto.
  2:{ exists items. split; auto. destruct s as [[i l]|]; lia. }
  clear s Hs. intros [[i l]|] Hs; unfold total, siblings_next.
  - eexists. eexists. split; [reflexivity|]. split; [apply node_opt_at|]. simpl in Hs. simpl.
    assert (Hi : i < n) by (eapply nth_lt; eauto).
    destruct (l_next l) as [y|] eqn:En; simpl; [|lia]. unfold node_at.
    destruct (li_next _ _ _ _ _ _ (HT _ _ Hs) y En) as (A & _ & _ & ly & Ey & _). rewrite Ey. lia.
  - eexists. eexists. split; [reflexivity|]. apply fixed. auto.
Qed.

Definition ups (i : nat) : nat := count (map Qopp los) (- lo i).
Lemma ups_parent i l p : nth_error ns i = Some l -> l_parent l = Some p -> p < n /\ ups p < ups i.
Proof.
  intros E Ep. destruct (li_parent _ _ _ _ _ _ (HT _ _ E) p Ep) as (A & B & _). split; auto.
  unfold ups. eapply count_lt; [apply in_map, in_los; eapply nth_lt; eauto| |]; lra.
Qed.
Lemma ups_n i : ups i <= n.
Proof. unfold ups. rewrite <- los_len, <- (map_length Qopp). apply count_all. Qed.
Lemma ups_pos i l : nth_error ns i = Some l -> 0 < ups i.
Proof.
  intros E. unfold ups. assert (count (map Qopp los) (- lo i + 1)%Q < count (map Qopp los) (- lo i)%Q); [|lia].
  eapply count_lt; [apply in_map, in_los; eapply nth_lt; eauto| |]; lra.
Qed.

Lemma ancestors_end s : at_ s -> exists items, enumerates (total (ancestors_next ns)) s items /\ length items <= n.
Proof.
  intros Hs. destruct (enum_exists (total (ancestors_next ns)) at_
     (fun s => match s with Some (i, _) => ups i | None => 0 end)) with (s := s) as (items & A & B); auto.
  2:{ exists items. split; auto. destruct s as [[i l]|]; [pose proof (ups_n i)|]; lia. }
  clear s Hs. intros [[i l]|] Hs; unfold total, ancestors_next.
  - eexists. eexists. split; [reflexivity|]. split; [apply node_opt_at|]. simpl in Hs. unfold node_parent. simpl.
    pose proof (ups_pos _ _ Hs). destruct (l_parent l) as [p|] eqn:Ep; simpl; [|lia]. unfold node_at.
    destruct (ups_parent _ _ _ Hs Ep) as [A B]. destruct (nth_in ns p A) as [lp Elp]. rewrite Elp. auto.
  - eexists. eexists. split; [reflexivity|]. apply fixed. auto.
Qed.

Lemma children_end c : exists items, enumerates (total (children_next ns)) c items /\ length items <= n.
Proof.
  destruct (enum_exists (total (children_next ns)) (fun _ => True)
     (fun s => match ch_first s with Some i => n - i | None => 0 end)) with (s := c) as (items & A & B); auto.
  2:{ exists items. split; auto. destruct (ch_first c); lia. }
  clear c. intros c _. unfold total, children_next. destruct c as [[f|] la]; simpl.
  2:{ eexists. eexists. split; [reflexivity|]. apply fixed. auto. }
  destruct (nth_error ns f) as [l|] eqn:E.
  2:{ eexists. eexists. split; [reflexivity|]. apply fixed. auto. }
  destruct la as [la|].
  2:{ eexists. eexists. split; [reflexivity|]. apply fixed. auto. }
  eexists. eexists. split; [reflexivity|]. split; auto.
  assert (Hi : f < n) by (eapply nth_lt; eauto).
  destruct (Nat.eqb f la); simpl; [lia|]. destruct (l_next l) as [y|] eqn:En; [|lia].
  destruct (li_next _ _ _ _ _ _ (HT _ _ E) y En) as (A & _). lia.
Qed.

Lemma children_back_end c : (forall i, ch_last c = Some i -> i < n) ->
  exists items, enumerates (total (children_next_back ns)) c items /\ length items <= n.
Proof.
  intros Hc. destruct (enum_exists (total (children_next_back ns)) (fun _ => True)
     (fun s => match ch_last s with Some i => S i | None => 0 end)) with (s := c) as (items & A & B); auto.
  2:{ exists items. split; auto. destruct (ch_last c) as [i|]; [specialize (Hc i eq_refl)|]; lia. }
  clear c Hc. intros c _. unfold total, children_next_back. destruct c as [f [la|]]; simpl.
  2:{ eexists. eexists. split; [reflexivity|]. apply fixed. auto. }
  destruct (nth_error ns la) as [l|] eqn:E.
  2:{ eexists. eexists. split; [reflexivity|]. apply fixed. auto. }
  destruct f as [f|].
  2:{ eexists. eexists. split; [reflexivity|]. apply fixed. auto. }
  eexists. eexists. split; [reflexivity|]. split; auto.
  destruct (Nat.eqb la f); simpl; [lia|]. destruct (l_prev l) as [y|] eqn:En; [|lia].
  destruct (li_prev _ _ _ _ _ _ (HT _ _ E) y En) as (A & _). lia.
Qed.

(** ** find_preceding, range queries *)
Lemma find_up_ends {St} (p : St -> node T -> St * bool) : forall fuel st i l, nth_error ns i = Some l -> ups i < fuel ->
  exists st' o, find_up fuel ns p st (i, l) = Ok (st', o) /\ at_ o.
Proof.
  induction fuel as [|fuel IH]; intros st i l E Hf; [lia|]. simpl.
  assert (G : forall st, exists st' o, match node_parent ns (i, l) with None => Ok (st, None) | Some m => find_up fuel ns p st m end = Ok (st', o) /\ at_ o).
  { clear st. intros st. unfold node_parent, node_opt, node_at. simpl. destruct (l_parent l) as [q|] eqn:Ep; [|exists st, None; split; simpl; auto].
    destruct (ups_parent _ _ _ E Ep) as [A B]. destruct (nth_in ns q A) as [lq Eq]. rewrite Eq.
    apply IH; auto. lia. }
  pose proof (node_opt_at (l_prev l)) as Hn. unfold node_prev. simpl.
  destruct (node_opt ns (l_prev l)) as [prev|]; auto. destruct (p st prev) as [st1 [|]]; auto. exists st1, (Some prev). split; auto.
Qed.

Definition downs (i : nat) : nat := count los (lo i).
Lemma find_down_ends {St} (p : St -> node T -> St * bool) : forall fuel st i l, nth_error ns i = Some l -> downs i < fuel ->
  exists st' r, find_down fuel ns p st (i, l) = Ok (st', r) /\ at_ (Some r).
Proof.
  induction fuel as [|fuel IH]; intros st i l E Hf; [lia|]. simpl.
  unfold node_last, node_opt, node_at. simpl. destruct (l_last l) as [q|] eqn:El; [|do 2 eexists; split; [reflexivity|auto]].
  destruct (li_last _ _ _ _ _ _ (HT _ _ E) q El) as (A & B). destruct (nth_in ns q A) as [lq Eq]. rewrite Eq.
  destruct (p st (q, lq)) as [st1 [|]]; [|do 2 eexists; split; [reflexivity|auto]]. apply IH; auto.
  assert (downs q < downs i); [|lia]. unfold downs. apply (count_lt los (lo i) (lo q) (lo i)); [apply in_los; eapply nth_lt; exact E| |]; lra.
Qed.

Lemma find_preceding_ends {St} (p : St -> node T -> St * bool) st i l : nth_error ns i = Some l ->
  exists st' o, find_preceding_mut ns p st (i, l) = Ok (st', o) /\ at_ o.
Proof.
  intros E. unfold find_preceding_mut. destruct (find_up_ends p (S (length ns)) st i l E) as (st1 & o & -> & Ho).
  { pose proof (ups_n i). fold n. lia. }
  destruct o as [[j lj]|]; [|exists st1, None; split; simpl; auto].
  destruct (find_down_ends p (S (length ns)) st1 j lj Ho) as (st2 & r & -> & Hr).
  { unfold downs. pose proof (count_all los (lo j)). rewrite los_len in *. fold n. lia. }
  do 2 eexists; split; [reflexivity|auto].
Qed.

Lemma climb_ends e : forall fuel i l, nth_error ns i = Some l -> ups i < fuel ->
  exists r, climb fuel ns e (i, l) = Ok r /\ at_ (Some r).
Proof.
  induction fuel as [|fuel IH]; intros i l E Hf; [lia|]. simpl.
  unfold node_parent, node_opt, node_at. simpl. destruct (l_parent l) as [q|] eqn:Ep; [|eexists; split; [reflexivity|auto]].
  destruct (ups_parent _ _ _ E Ep) as [A B]. destruct (nth_in ns q A) as [lq Eq]. rewrite Eq.
  destruct (_ <=? _)%N; [eexists; split; [reflexivity|auto]|]. apply IH; auto. lia.
Qed.
End AllWalk.
