(** C56: [inside()] at any point of any walk, for built and for modified trees. *)
From Coq Require Import Lia Permutation.
From Verif Require Import Base Pointer Index Tree Builder Hist Node Iter Edit Spec SpecEdit SpecWalkMix SpecInside Rep Marks Refine
  TreeRep Enum Walk WalkTree Bounds WalkGen WalkThms Nav Skip Demo PropsWalkMix SpecModified PropsModified.

(** Consecutive events. *)
Definition follows {T} (i i' : Z * event * rose T) : Prop :=
  match snd (fst i) with
  | Up => (fst (fst i') = fst (fst i) /\ snd (fst i') = Next) \/ (fst (fst i') = fst (fst i) - 1 /\ snd (fst i') = Up)%Z
  | _ => (fst (fst i') = fst (fst i) + 1 /\ snd (fst i') = Down)%Z \/
         (fst (fst i') = fst (fst i) /\ snd (fst i') = Next) \/ (fst (fst i') = fst (fst i) - 1 /\ snd (fst i') = Up)%Z
  end.
Fixpoint chained {T} (tr : list (Z * event * rose T)) : Prop :=
  match tr with
  | i :: tr' => match tr' with i' :: _ => follows i i' | [] => True end /\ chained tr'
  | [] => True
  end.

Section Chain.
Context {T : Type}.
Variable F : flavor.
Variable nodes : list (links T).
Implicit Types tr : list (Z * event * rose T).

Lemma wrun_chained w tr w2 : wrun F nodes w tr w2 -> chained tr.
Proof.
  induction 1 as [|w w1 w2 e n x tr E Hs H IH]; simpl; auto. split; auto.
  destruct tr as [|[[d' e'] x'] tr]; auto. pose proof (wrun_cons_state _ _ _ _ _ _ _ _ H) as ->.
  unfold follows. cbn [fst snd]. unfold walk_events_next in E. destruct (wk_node w) as [[i e0]|]; [|discriminate].
  destruct (nth_error nodes i) as [lk|]; [|discriminate].
  unfold walk_step, isize_dec, isize_inc in E.
  destruct e0, (l_first lk), (l_next lk), (l_parent lk); cbn [fst snd] in E;
    repeat match goal with H : context [if ?b then _ else _] |- _ => destruct b end; inversion E; subst; auto.
Qed.

Lemma chained_tl i tr : chained (i :: tr) -> chained tr.
Proof. intros [_ H]; auto. Qed.

(** From an event at depth [d] or lower on, the first node to be entered is not deeper. *)
Lemma first_low tr : forall d e x, chained ((d, e, x) :: tr) ->
  match filter entering ((d, e, x) :: tr) with [] => True | i :: _ => (fst (fst i) <= d)%Z end.
Proof.
  induction tr as [|[[d' e'] x'] tr IH]; intros d e x [H Hc]; [destruct e; cbn; auto; lia|].
  destruct e; [cbn; lia|cbn; lia|]. change (filter entering ((d, Up, x) :: ?r)) with (filter entering r).
  specialize (IH d' e' x' Hc). destruct (filter entering ((d', e', x') :: tr)) as [|i r]; auto.
  unfold follows in H. cbn [fst snd] in H. lia.
Qed.

Lemma deeper_app (a b : list (Z * rose T)) : Forall (fun i => 0 < fst i)%Z a ->
  match b with [] => True | i :: _ => (fst i <= 0)%Z end -> deeper (a ++ b) = map snd a.
Proof.
  intros Ha Hb. induction Ha as [|[d x] a Hd Ha IH]; simpl.
  - destruct b as [|[d x] b]; auto. simpl in *. destruct (Z.ltb_spec 0 d); auto; lia.
  - simpl in Hd. destruct (Z.ltb_spec 0 d); [|lia]. congruence.
Qed.

(** The longest part of a trace that is deeper than 0. *)
Lemma split_deep tr : exists a b, tr = a ++ b /\ Forall (fun i => 0 < fst (fst i))%Z a /\
  match b with [] => True | i :: _ => (fst (fst i) <= 0)%Z end.
Proof.
  induction tr as [|i tr (a & b & -> & Ha & Hb)]; [exists [], []; auto|].
  destruct (Z.ltb_spec 0 (fst (fst i))) as [H|H].
  - exists (i :: a), b. auto.
  - exists [], (i :: a ++ b). auto.
Qed.

Lemma filter_Forall {A} (P : A -> Prop) f (l : list A) : Forall P l -> Forall P (filter f l).
Proof. induction 1; simpl; auto. destruct (f x); auto. Qed.

Lemma inside_law (t : tree T) w i tr d : nodes = t_nodes t -> (d <= 0)%Z ->
  wrun F nodes w (i :: tr) (WalkIt None d) -> ups (i :: tr) < loop_fuel nodes ->
  enumerates_nodes (inside_next F nodes) w
    (if entering i then snd i :: deeper (map item_of (filter entering tr)) else deeper (map item_of (filter entering tr))).
Proof.
  intros En Hd H Hu. destruct (split_deep tr) as (a & b & -> & Ha & Hb).
  assert (Hc : chained b).
  { pose proof (chained_tl _ _ (wrun_chained _ _ _ H)) as G. clear - G. induction a; auto. apply IHa. eapply chained_tl; eauto. }
  change (i :: a ++ b) with ((i :: a) ++ b) in H, Hu. apply wrun_app_inv in H as (w1 & H1 & H2).
  assert (Hw : (wk_depth w1 <= 0)%Z).
  { destruct b as [|[[d' e'] x'] b]; [inversion H2; subst; auto|].
    rewrite (wrun_cons_state _ _ _ _ _ _ _ _ H2). exact Hb. }
  rewrite ups_app in Hu. subst nodes.
  pose proof (inside_run F t w (i :: a) w1 (loop_fuel (t_nodes t)) H1 ltac:(congruence) ltac:(lia) Hw Ha) as G.
  eapply enum_rel_map in G; [|intros u v [_ G2]; exact G2].
  assert (Hde : deeper (map item_of (filter entering (a ++ b))) = map snd (filter entering a)).
  { rewrite filter_app, map_app, deeper_app.
    - rewrite map_map. auto.
    - apply Forall_map. eapply Forall_impl; [|apply filter_Forall; exact Ha]. intros [[? ?] ?]; auto.
    - destruct b as [|[[d' e'] x'] b]; auto. pose proof (first_low b d' e' x' Hc) as L. cbn [fst] in Hb.
      destruct (filter entering ((d', e', x') :: b)); auto. cbn [map item_of]. unfold item_of. cbn [fst]. lia. }
  rewrite Hde. cbn [filter] in G. destruct (entering i); exact G.
Qed.

(** Where the walk stands after [j] nodes have been entered. *)
Lemma cut_entered tr : forall j i rest, cut (S j) tr = i :: rest -> chained tr ->
  exists k e x, nth_error (filter entering tr) j = Some (k, e, x) /\ e <> Up /\ follows (k, e, x) i.
Proof.
  induction tr as [|[[k e] x] tr IH]; intros j i rest E Hc; [discriminate|].
  cbn [cut filter] in *. destruct (entering (k, e, x)) eqn:Ee.
  - destruct j as [|j].
    + rewrite cut_0 in E. subst tr. destruct Hc as [Hf _]. exists k, e, x. split; auto. split; auto.
      intros ->. discriminate.
    + destruct (IH j i rest E (chained_tl _ _ Hc)) as (k' & e' & x' & H1 & H2 & H3). exists k', e', x'. auto.
  - destruct (IH j i rest E (chained_tl _ _ Hc)) as (k' & e' & x' & H1 & H2 & H3). exists k', e', x'. auto.
Qed.

Lemma chained_cut tr : forall j, chained tr -> chained (cut j tr).
Proof.
  induction tr as [|i tr IH]; intros [|j] Hc; auto. cbn [cut]. destruct (entering i); apply IH; eapply chained_tl; eauto.
Qed.

(** The law, on a run. *)
Lemma inside_thm (t : tree T) w0 i0 tr0 d w j : nodes = t_nodes t -> (d <= 0)%Z ->
  wrun F nodes w0 (i0 :: tr0) (WalkIt None d) -> ups (i0 :: tr0) < loop_fuel nodes ->
  wrun F nodes w (cut j (i0 :: tr0)) (WalkIt None d) ->
  enumerates_nodes (inside_next F nodes) w (inside_left (entering i0) (map item_of (filter entering (i0 :: tr0))) j).
Proof.
  intros En Hd H0 Hu H. pose proof (wrun_chained _ _ _ H0) as Hc. pose proof (chained_cut _ j Hc) as Hc2.
  set (tr := i0 :: tr0) in *.
  assert (Hf : map item_of (filter entering (cut j tr)) = skipn j (map item_of (filter entering tr))) by (rewrite cut_filter, skipn_map; auto).
  pose proof (ups_cut tr j) as Hu2.
  unfold inside_left. rewrite <- Hf. destruct (cut j tr) as [|i rest] eqn:Ec.
  { cbn [filter map]. inversion H; subst. exists []. split; auto. apply enumerates_stuck with (P := fun w => w = WalkIt None d); auto.
    intros w ->. exists (WalkIt None d). unfold inside_next, loop_fuel. auto. }
  pose proof (inside_law t w i rest d En Hd H ltac:(lia)) as G. destruct i as [[k e] x].
  destruct (entering (k, e, x)) eqn:Ee.
  - cbn [filter map] in *. rewrite Ee in *. cbn [map]. unfold item_of at 1. cbn [fst snd] in *.
    replace (match j with 0 => entering i0 | S i => _ end) with true; auto.
    destruct j as [|j].
    + unfold tr in Ec. rewrite cut_0 in Ec. injection Ec as -> _. auto.
    + destruct (cut_entered _ _ _ _ Ec Hc) as (k' & e' & x' & N1 & N2 & N3). rewrite nth_error_map, N1. cbn [option_map item_of fst].
      unfold item_of. cbn [fst]. symmetry. apply Z.leb_le. unfold follows in N3. cbn [fst snd] in N3.
      destruct e'; try congruence; destruct N3 as [[? ?]|[[? ?]|[? ?]]]; subst; try lia; discriminate.
  - assert (e = Up) by (destruct e; auto; discriminate). subst e. cbn [filter] in *. rewrite Ee in *. clear Ee.
    destruct (filter entering rest) as [|[[k' e'] x'] r] eqn:Er; [exact G|].
    pose proof (first_low rest k Up x Hc2) as L. cbn [filter] in L. change (entering (k, Up, x)) with false in L. cbn iota in L. rewrite Er in L. cbn [fst] in L.
    cbn [map] in *. unfold item_of at 1. unfold item_of at 1 in G. cbn [fst snd] in *.
    replace (match j with 0 => entering i0 | S i => _ end) with false; auto.
    destruct j as [|j].
    + unfold tr in Ec. rewrite cut_0 in Ec. injection Ec as -> _. auto.
    + destruct (cut_entered _ _ _ _ Ec Hc) as (k2 & e2 & x2 & N1 & N2 & N3). rewrite nth_error_map, N1. cbn [option_map].
      unfold item_of. cbn [fst]. symmetry. apply Z.leb_gt. unfold follows in N3. cbn [fst snd] in N3.
      destruct e2; try congruence; destruct N3 as [[? ?]|[[? ?]|[? ?]]]; try discriminate; lia.
Qed.
End Chain.

(** A started walk is a run. *)
Lemma start_run {T} F (t : tree T) l w coming at_node : good F t l -> start F t l w coming at_node ->
  exists tr d, wrun F (t_nodes t) w tr (WalkIt None d) /\ ups tr < loop_fuel (t_nodes t) /\ (d <= 0)%Z /\
    map item_of (filter entering tr) = coming /\ match tr with [] => True | i :: _ => entering i = at_node end.
Proof.
  intros G H. pose proof (g_fin_rep F t l G) as Hrep. pose proof (g_fin_fits F t l G) as Hfits.
  destruct H as [|x n pre k post En E|x n pre k post En E].
  - assert (Hu : ups (trace_list 0 l) < loop_fuel (t_nodes t)).
    { pose proof (ups_trace_list 0 l). pose proof (size_l_le_fuel t l Hrep). lia. }
    pose proof (full_run F t l Hrep Hfits 0 ltac:(lia)) as H. unfold tree_walk. rewrite (tr_first _ _ Hrep). destruct l as [|x s].
    + exists [], 0%Z. split; [constructor|]. split; [exact Hu|]. split; [lia|]. split; auto.
    + exists (trace_list 0 (x :: s)), (0 - 1)%Z. split; [exact H|]. split; auto. split; [lia|]. split; [exact (trace_list_preorder 0 (x :: s))|].
      change (trace_list 0 (x :: s)) with (trace 0 Next x ++ trace_list 0 s). rewrite trace_eq. reflexivity.
  - pose proof E as E0. fold (preorder_depth_list 0 l) in E. rewrite <- (trace_list_preorder 0 l) in E.
    apply map_filter_split in E as (tr1 & [[k' e'] x'] & tr2 & Et & Hen & Ei & _ & E2). simpl in Ei. injection Ei as -> ->.
    assert (He : e' <> Up) by (intros ->; discriminate).
    assert (Hx : In x (preorder_list l)).
    { rewrite <- (preorder_depth_list_snd 0 l). unfold preorder_depth_list. rewrite E0, map_app. apply in_app_iff. simpl. auto. }
    assert (Hk : (0 <= k < Z.of_nat (size_l l))%Z).
    { assert (Hi : In (k, e', x) (trace_list 0 l)) by (rewrite Et; apply in_app_iff; simpl; auto).
      apply trace_list_range in Hi. simpl in Hi. lia. }
    unfold node_walk. rewrite (g_node_walk_id F t l G n x En Hx).
    pose proof (mid_run_next F t l Hrep Hfits _ _ _ _ _ He Et) as Hr.
    exists ((0%Z, Next, x) :: map (shift (- k)) tr2), (- k - 1)%Z. split; auto. split; [|split; [lia|split; [|reflexivity]]].
    + pose proof (ups_trace_list 0 l) as Hu. rewrite Et, ups_app in Hu. pose proof (size_l_le_fuel t l Hrep).
      change (?a :: ?b) with ([a] ++ b) in *. rewrite ups_app, ups_shift in *.
      assert (ups [(0%Z, Next, x)] = 0) as -> by auto. lia.
    + cbn [filter entering fst snd map]. unfold item_of at 1. cbn [fst snd]. f_equal; [f_equal; lia|].
      rewrite filter_shift, <- E2, !map_map. apply map_ext. intros [[d0 e0] y]. reflexivity.
  - assert (Hx : In x (preorder_list l)).
    { rewrite <- (preorder_depth_list_snd 0 l). unfold preorder_depth_list. rewrite E, !map_app, preorder_depth_snd.
      apply in_app_iff. right. apply in_app_iff. left. apply preorder_self. }
    destruct (trace_list_sub x l 0 Hx) as (tr1 & k' & e & tr2 & Et & He).
    assert (Hp : k' = k /\ map item_of (filter entering tr2) = post).
    { pose proof (trace_list_preorder 0 l) as Hn. unfold preorder_depth_list in Hn.
      rewrite Et, !filter_app, !map_app, E in Hn.
      rewrite (trace_preorder k' e x He) in Hn.
      assert (Hd : NoDup (map snd (pre ++ preorder_depth k x ++ post))).
      { rewrite <- E. change (flat_map (preorder_depth 0) l) with (preorder_depth_list 0 l).
        rewrite preorder_depth_list_snd. eapply nodup_preorder; eauto. }
      pose proof (f_equal (map snd) Hn) as Hm. rewrite !map_app, !preorder_depth_snd in Hm. rewrite !map_app, preorder_depth_snd in Hd.
      destruct x as [i kk d sp kids]. cbn [preorder app] in Hm, Hd.
      destruct (split_unique _ _ _ _ _ (eq_sym Hm) Hd) as [Hl _].
      assert (Hlen : length (map (fun i : Z * event * rose T => (fst (fst i), snd i)) (filter entering tr1)) = length pre).
      { apply (f_equal (@length _)) in Hl. rewrite !map_length in *. congruence. }
      apply app_eq_app_len in Hn as [_ Hn]; auto. cbn [preorder_depth app] in Hn. injection Hn as -> Hn. split; auto.
      apply app_inv_head in Hn. exact Hn. }
    destruct Hp as [-> Hp].
    assert (Hk : (0 <= k)%Z).
    { assert (Hi : In (k, e, x) (trace_list 0 l)). { rewrite Et. apply in_app_iff. right. apply in_app_iff. left. rewrite trace_eq. left; auto. }
      apply trace_list_range in Hi. simpl in Hi. lia. }
    unfold node_walk_from. rewrite (g_node_walk_id F t l G n x En Hx).
    pose proof (leave_run_at F t l Hrep Hfits tr1 k e x tr2 He Hx Et) as Hr.
    exists ((0%Z, Up, x) :: map (shift (- k)) tr2), (- k - 1)%Z. split; auto. split; [|split; [lia|split; [|reflexivity]]].
    + pose proof (ups_trace_list 0 l) as Hu. rewrite Et, !ups_app in Hu.
      assert (Hf2 : loop_fuel (t_nodes t) = S (S (size_l l))) by (unfold loop_fuel; rewrite (tr_length _ _ Hrep); auto).
      change (?a :: ?b) with ([a] ++ b) in *. rewrite ups_app, ups_shift in *.
      assert (ups [(0%Z, Up, x)] = 1) as -> by auto. lia.
    + cbn [filter entering fst snd map]. rewrite filter_shift, <- Hp, !map_map. apply map_ext.
      intros [[d0 e0] y]. reflexivity.
Qed.

(** ** C56, in full: any walk of any tree, built or modified, asked in any way any number of times, and continued in any form. *)
Theorem C56_anywhere : forall T F (t : tree T) l w0 coming at_node asks, (exists ops, finished F ops t l) \/ (modified F t l /\ fits F t) -> start F t l w0 coming at_node ->
  exists w answers, ask_walk F (t_nodes t) w0 asks = Ok (w, answers) /\
    map (option_map (fun a => (fst a, view (snd a)))) answers =
    map (option_map (fun a => (fst a, rview (snd a)))) (told coming asks) /\
    enumerates_nodes (walk_next F (t_nodes t)) w (skipn (length asks) (map snd coming)) /\
    (exists items, enumerates (walk_depths_next F (t_nodes t)) w items /\
       map (fun i => (fst i, view (snd i))) items = map (fun i => (fst i, rview (snd i))) (skipn (length asks) coming)) /\
    (forall fuel, length coming < fuel ->
       enumerates_nodes (skip_next fuel (walk_next F (t_nodes t))) w (filter has_kids (skipn (length asks) (map snd coming)))) /\
    enumerates_nodes (inside_next F (t_nodes t)) w (inside_left at_node coming (length asks)).
Proof.
  intros T F t l w0 coming at_node asks Hm Hs.
  assert (G : good F t l) by (destruct Hm as [[ops Hm]|[Hm Hfits]]; [exact (fin_good F ops t l Hm)|exact (mod_good T F t l Hm Hfits)]).
  destruct (start_run F t l w0 coming at_node G Hs) as (tr & d & Hr & Hu & Hd & Hc & Ha).
  destruct (ask_thm F (t_nodes t) asks _ _ _ Hr Hu) as (w & an & E & Ev & Hw). exists w, an. rewrite Hc in Ev. split; auto. split; auto.
  assert (Hu2 : ups (cut (length asks) tr) < loop_fuel (t_nodes t)) by (pose proof (ups_cut tr (length asks)); lia).
  assert (G1 : enumerates_nodes (walk_next F (t_nodes t)) w (skipn (length asks) (map snd coming))).
  { pose proof (wrun_walk F (t_nodes t) _ _ _ _ Hw Hu2) as G1. rewrite cut_filter, <- skipn_map in G1. rewrite <- Hc, map_map.
    eapply enum_rel_map in G1; [exact G1|]. intros a b [_ G2]; auto. }
  split; auto. split.
  { pose proof (wrun_depths F (t_nodes t) _ _ _ _ Hw Hu2) as G2. rewrite cut_filter in G2.
    eapply enum_rel_map with (f := fun i => (fst i, view (snd i)))
      (g := fun i : Z * event * rose T => (fst (fst i), rview (snd i))) in G2.
    + destruct G2 as (it & H1 & H2). exists it. split; auto. rewrite H2, <- Hc, <- !skipn_map, !map_map. auto.
    + intros [e n] [[dp e'] x] [H1 [_ H2]]. simpl in *. subst. f_equal. auto. }
  split.
  { intros fuel Hl. apply skip_enumerates; auto. rewrite skipn_length, map_length. lia. }
  destruct tr as [|i tr].
  - rewrite cut_nil in Hw. cbn [filter map] in Hc. subst coming. inversion Hw; subst.
    assert (En : inside_left at_node (@nil (Z * rose T)) (length asks) = []) by (unfold inside_left; destruct (length asks); auto). rewrite En.
    exists []. split; auto. apply enumerates_stuck with (P := fun w => w = WalkIt None d); auto.
    intros w ->. exists (WalkIt None d). unfold inside_next, loop_fuel. auto.
  - subst at_node coming. eapply (inside_thm F (t_nodes t) t w0 i tr d w (length asks)); eauto.
Qed.
Print Assumptions C56_anywhere.

(** The hypotheses are met by the demo tree and a walk from the node [b] in it; two questions further the walk has left the
    parent of [b], and [inside()] has nothing; three and it is above where it started. *)
Example C56_anywhere_inhabited : exists n coming,
  finished flavor_default demo_ops demo_tree demo_doc /\ tree_get demo_tree 2 = Some n /\
  start flavor_default demo_tree demo_doc (node_walk flavor_default n) coming true /\
  map (fun i => (fst i, r_data (snd i))) coming = [(0%Z, 2); (0%Z, 12); ((-1)%Z, 3); ((-2)%Z, 4)] /\
  map (fun j => map r_data (inside_left true coming j)) [0; 1; 2; 3; 4; 5] = [[2]; [12]; []; []; []; []].
Proof.
  eexists _, _. split; [exact demo_finished|].
  split; [vm_compute; reflexivity|]. split.
  - eapply start_node with (x := Nd 2 KLeaf 2 (Span 3 5) []) (k := 2%Z)
      (pre := firstn 3 (flat_map (preorder_depth 0) demo_doc)) (post := skipn 4 (flat_map (preorder_depth 0) demo_doc)); vm_compute; reflexivity.
  - vm_compute. auto.
Qed.
