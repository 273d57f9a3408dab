(** C56: one walk, asked with and without depths, and continued in any form. *)
From Coq Require Import Lia Permutation.
From Verif Require Import Base Pointer Index Tree Builder Hist Node Iter Spec SpecWalkMix Rep Marks Refine
  TreeRep Enum Walk WalkTree Bounds WalkThms Nav Skip Demo.

(** What is left of a trace after [j] nodes have been entered. *)
Fixpoint cut {T} (j : nat) (tr : list (Z * event * rose T)) : list (Z * event * rose T) :=
  match j, tr with
  | 0, _ => tr
  | S j', [] => []
  | S j', i :: tr => if entering i then cut j' tr else cut j tr
  end.
Lemma cut_0 {T} tr : @cut T 0 tr = tr.
Proof. destruct tr; auto. Qed.
Definition entered {T} (tr : list (Z * event * rose T)) := length (filter entering tr).

Lemma cut_nil {T} j : @cut T j [] = [].
Proof. destruct j; auto. Qed.
Lemma cut_filter {T} (tr : list (Z * event * rose T)) : forall j, filter entering (cut j tr) = skipn j (filter entering tr).
Proof.
  induction tr as [|i tr IH]; intros j; [rewrite cut_nil; destruct j; auto|].
  destruct j as [|j]; [reflexivity|]. cbn [cut filter]. destruct (entering i); [rewrite IH; auto|].
  rewrite IH. auto.
Qed.
Lemma cut_app {T} (a b : list (Z * event * rose T)) : forall j, j <= entered a -> cut j (a ++ b) = cut j a ++ b.
Proof.
  unfold entered. induction a as [|i a IH]; intros [|m] Hj; rewrite ?cut_0; auto; [simpl in Hj; lia|].
  cbn [app cut filter] in *. 
  destruct (entering i); apply IH; simpl in Hj; lia.
Qed.
Lemma cut_over {T} (a b : list (Z * event * rose T)) : forall j, entered a < j -> cut j (a ++ b) = cut (j - entered a) b.
Proof.
  unfold entered. induction a as [|i a IH]; intros m Hj; [rewrite Nat.sub_0_r; auto|].
  destruct m as [|m]; [lia|]. cbn [app cut filter] in *. destruct (entering i); rewrite IH; simpl in *; auto; lia.
Qed.
Lemma cut_sub {T} (a : list (Z * event * rose T)) : forall j i, In i (cut j a) -> In i a.
Proof.
  induction a as [|x a IH]; intros [|j] i Hi; auto. cbn [cut] in Hi. destruct (entering x); right; eapply IH; eauto.
Qed.
Lemma ups_cut {T} (a : list (Z * event * rose T)) : forall j, ups (cut j a) <= ups a.
Proof.
  induction a as [|x a IH]; intros [|j]; auto. cbn [cut]. change (x :: a) with ([x] ++ a) in *. rewrite ups_app.
  destruct (entering x); [specialize (IH j)|specialize (IH (S j))]; lia.
Qed.
Lemma entered_trace {T} dp e (x : rose T) : e <> Up -> entered (trace dp e x) = length (preorder x).
Proof.
  intros He. unfold entered. rewrite <- (map_length (fun i => (fst (fst i), snd i))), (trace_preorder dp e x He).
  rewrite <- (map_length snd), preorder_depth_snd. auto.
Qed.

Lemma app_eq_app_len {A} (a b c d : list A) : a ++ b = c ++ d -> length c = length a -> a = c /\ b = d.
Proof.
  revert c; induction a as [|x a IH]; intros [|y c] H Hl; try discriminate; auto.
  cbn [app] in H. injection H as -> H. destruct (IH c H ltac:(simpl in Hl; lia)) as [-> ->]. auto.
Qed.

Section Mix.
Context {T : Type}.
Variable F : flavor.
Variable nodes : list (links T).

Lemma one_step w tr d f : wrun F nodes w tr (WalkIt None d) -> ups tr < f ->
  match filter entering tr with
  | [] => walk_loop f F nodes w = Ok (WalkIt None d, None) /\ walk_depths_loop f F nodes w = Ok (WalkIt None d, None)
  | (k, e, x) :: _ => exists n w1, shows nodes n x /\ walk_loop f F nodes w = Ok (w1, Some n) /\
      walk_depths_loop f F nodes w = Ok (w1, Some (k, n)) /\ wrun F nodes w1 (cut 1 tr) (WalkIt None d)
  end.
Proof.
  intros H. remember (WalkIt None d) as w2. revert f. induction H as [|w w1 w2 e n x tr E Hs H IH]; subst; intros f Hf.
  - destruct f; [lia|]. simpl. auto.
  - destruct f as [|f]; [lia|].
    assert (Hc : e = Up \/ e <> Up) by (destruct e; auto; right; congruence). destruct Hc as [->|He].
    + cbn [filter entering fst snd cut]. specialize (IH eq_refl f).
      cbn [walk_loop walk_depths_loop]. rewrite E. apply IH. unfold ups in *. simpl in Hf. lia.
    + assert (Hen : entering (wk_depth w, e, x) = true) by (destruct e; auto; congruence).
      cbn [filter cut]. rewrite Hen. exists n, w1. cbn [walk_loop walk_depths_loop]. rewrite E.
      rewrite cut_0. destruct e; try congruence; repeat (split; auto).
Qed.

Definition item_of (i : Z * event * rose T) : Z * rose T := (fst (fst i), snd i).

Lemma ask_thm asks : forall w tr d, wrun F nodes w tr (WalkIt None d) -> ups tr < loop_fuel nodes ->
  exists w' answers, ask_walk F nodes w asks = Ok (w', answers) /\
    map (option_map (fun a => (fst a, view (snd a)))) answers =
    map (option_map (fun a => (fst a, rview (snd a)))) (told (map item_of (filter entering tr)) asks) /\
    wrun F nodes w' (cut (length asks) tr) (WalkIt None d).
Proof.
  induction asks as [|q asks IH]; intros w tr d H Hu; [exists w, []; rewrite cut_0; auto|].
  pose proof (one_step w tr d (loop_fuel nodes) H Hu) as H1. cbn [ask_walk told length].
  destruct (filter entering tr) as [|[[k e] x] rest] eqn:Ef.
  - destruct H1 as [H1 H2].
    destruct (IH (WalkIt None d) [] d ltac:(constructor) ltac:(unfold ups; simpl; unfold loop_fuel; lia)) as (w' & an & E & Ev & Hw).
    exists w', (None :: an). unfold walk_next, walk_depths_next. cbn [map filter option_map] in *.
    assert (Hc : cut (S (length asks)) tr = []).
    { clear - Ef. induction tr as [|i tr IHt]; auto. cbn [cut filter] in *. destruct (entering i); [discriminate|]. auto. }
    rewrite Hc, cut_nil in *. destruct q.
    + rewrite H1, E. cbn [option_map]. split; auto. split; auto. f_equal. exact Ev.
    + rewrite H2, E. cbn [option_map]. split; auto. split; auto. f_equal. exact Ev.
  - destruct H1 as (n & w1 & Hs & H1 & H2 & H3).
    destruct (IH w1 (cut 1 tr) d H3 ltac:(pose proof (ups_cut tr 1); lia)) as (w' & an & E & Ev & Hw).
    rewrite cut_filter, Ef in Ev. cbn [skipn] in Ev.
    assert (Hc : cut (length asks) (cut 1 tr) = cut (S (length asks)) tr).
    { clear. generalize (length asks) as j. intros j. induction tr as [|i tr IHt]; [rewrite !cut_nil; auto|].
      cbn [cut]. destruct (entering i); [rewrite cut_0; auto|exact IHt]. }
    rewrite Hc in Hw. unfold walk_next, walk_depths_next. cbn [map item_of fst snd].
    assert (Hv : view n = rview x) by apply Hs.
    destruct q.
    + rewrite H1, E. cbn [option_map]. exists w', (Some (None, n) :: an). split; auto. split; auto.
      cbn [map option_map fst snd]. rewrite Hv. f_equal. exact Ev.
    + rewrite H2, E. cbn [option_map fst snd]. exists w', (Some (Some k, n) :: an). split; auto. split; auto.
      cbn [map option_map fst snd]. rewrite Hv. f_equal. exact Ev.
Qed.

(** Two runs from one state. *)
Lemma wrun_prefix w a w1 : wrun F nodes w a w1 -> forall b d, wrun F nodes w b (WalkIt None d) ->
  exists c, wrun F nodes w1 c (WalkIt None d) /\ ups (a ++ c) = ups b.
Proof.
  induction 1 as [|w w1 w2 e n x tr E Hs H IH]; intros b d Hb; [exists b; auto|].
  inversion Hb as [|? w1' ? e' n' x' tr' E' Hs' H']; subst.
  - unfold walk_events_next in E. discriminate.
  - rewrite E in E'. injection E' as <- <- <-. destruct (IH _ _ H') as (c & H1 & H2). exists c. split; auto.
    cbn [app]. unfold ups in *. cbn [filter]. destruct e; cbn [entering fst snd negb]; simpl; congruence.
Qed.

Lemma up_stops d p : (d <= 0)%Z -> enumerates_nodes (inside_next F nodes) (WalkIt (Some (p, Up)) d) [].
Proof.
  intros Hd. exists []. split; auto.
  assert (Hdef : enumerates (inside_next F nodes) walk_default []).
  { unfold inside_next, loop_fuel. apply enumerates_stuck with (P := fun w => w = walk_default); auto.
    intros w ->. exists walk_default. auto. }
  apply enumerates_nil. exists (if nth_error nodes p then walk_default else WalkIt None d).
  assert (Hn : forall d, enumerates (inside_next F nodes) (WalkIt None d) []).
  { intros d'. apply enumerates_stuck with (P := fun w => w = WalkIt None d'); auto. intros w ->. exists (WalkIt None d').
    unfold inside_next, loop_fuel. auto. }
  unfold inside_next, loop_fuel. cbn [inside_loop]. unfold walk_events_next at 1. cbn [wk_node wk_depth].
  destruct (nth_error nodes p) as [lk|]; [|split; auto].
  split; auto. unfold walk_step. destruct (l_next lk).
  - cbn [wk_depth]. destruct (Z.leb_spec d 0); [|lia]. destruct (length nodes); auto.
  - unfold isize_dec. destruct (_ <=? d - 1)%Z; cbn [wk_depth].
    + destruct (Z.leb_spec (d - 1) 0); [|lia]. destruct (length nodes); auto.
    + destruct (Z.leb_spec d 0); [|lia]. destruct (length nodes); auto.
Qed.
End Mix.

Section Inside.
Context {T : Type}.
Variable F : flavor.
Variable ops : list (op T).
Variable t : tree T.
Variable l : list (rose T).
Hypothesis Hfin : finished F ops t l.
Implicit Types x : rose T.
Notation nodes := (t_nodes t).

Lemma enough : size_l l < loop_fuel nodes.
Proof. apply size_l_le_fuel. exact (WalkThms.fin_rep _ _ _ _ Hfin). Qed.

Definition low (tr : list (Z * event * rose T)) : Prop :=
  match tr with [] => True | (d, e, _) :: _ => (d <= 0)%Z /\ e = Up end.

Lemma inside_stopped d : enumerates_nodes (inside_next F nodes) (WalkIt None d) [].
Proof.
  exists []. split; auto. apply enumerates_stuck with (P := fun w => w = WalkIt None d); auto.
  intros w ->. exists (WalkIt None d). unfold inside_next, loop_fuel. auto.
Qed.

Lemma inside_mix : forall s tail j w d, (forall y, In y s -> In y (preorder_list l)) -> low tail -> j <= size_l s ->
  wrun F nodes w (cut j (trace_list 0 s ++ tail)) (WalkIt None d) ->
  enumerates_nodes (inside_next F nodes) w (inside_rest s j).
Proof.
  intros s. induction s as [|x s IH]; intros tail j w d Hin Hlow Hj Hw.
  - unfold size_l in Hj. simpl in Hj. assert (j = 0) by lia. subst j. rewrite cut_0 in Hw. cbn [trace_list flat_map app inside_rest] in *.
    destruct tail as [|[[dd e] y] tail]; [inversion Hw; subst; apply inside_stopped|].
    destruct Hlow as [Hd ->]. rewrite (wrun_cons_state _ _ _ _ _ _ _ _ Hw). apply up_stops; auto.
  - rewrite size_l_cons in Hj. unfold size in Hj. cbn [inside_rest].
    change (trace_list 0 (x :: s)) with (trace 0 Next x ++ trace_list 0 s) in Hw. rewrite <- app_assoc in Hw.
    assert (He : Next <> Up) by congruence. pose proof (entered_trace 0 Next x He) as Hent.
    destruct (Nat.leb_spec j (length (preorder x))) as [Hle|Hgt].
    2:{ rewrite cut_over in Hw by lia. rewrite Hent in Hw. apply (IH tail (j - length (preorder x)) w d); auto.
        - intros y Hy. apply Hin. right; auto.
        - lia. }
    rewrite cut_app in Hw by lia.
    destruct j as [|j].
    { rewrite cut_0, trace_eq in Hw. cbn [app] in Hw. rewrite (wrun_cons_state _ _ _ _ _ _ _ _ Hw).
      destruct (r_kids x); cbn [skipn]; apply (inside_from F ops t l Hfin x); apply Hin; left; auto. }
    destruct (r_kids x) as [|c ks] eqn:Ek.
    + assert (j = 0). { destruct x as [? ? ? ? kids]. simpl in Ek. subst kids. simpl in Hle. lia. } subst j.
      assert (Hc : cut 1 (trace 0 Next x) = []). { rewrite trace_eq, Ek. auto. } rewrite Hc in Hw. cbn [app] in Hw.
      destruct s as [|y s].
      * cbn [trace_list flat_map app] in Hw.
        destruct tail as [|[[dd e] z] tail]; [inversion Hw; subst; apply inside_stopped|].
        destruct Hlow as [Hd ->]. rewrite (wrun_cons_state _ _ _ _ _ _ _ _ Hw). apply up_stops; auto.
      * change (trace_list 0 (y :: s)) with (trace 0 Next y ++ trace_list 0 s) in Hw. rewrite trace_eq in Hw. cbn [app] in Hw.
        rewrite (wrun_cons_state _ _ _ _ _ _ _ _ Hw). apply (inside_from F ops t l Hfin y). apply Hin. right; left; auto.
    + set (A := (0%Z, Next, x) :: trace_kids (0 + 1) (c :: ks)).
      assert (Et : trace 0 Next x = A ++ [(0%Z, Up, x)]) by (rewrite trace_eq, Ek; auto).
      assert (HeA : entered A = length (preorder x)).
      { rewrite <- Hent, Et. unfold entered. rewrite filter_app, app_length. simpl. lia. }
      rewrite Et in Hw. rewrite cut_app in Hw by lia. rewrite <- app_assoc in Hw.
      apply wrun_app_inv in Hw as (w2 & H1 & H2). cbn [app] in H2.
      pose proof (wrun_cons_state _ _ _ _ _ _ _ _ H2). subst w2.
      assert (Hm : map snd (filter entering (cut (S j) A)) = skipn (S j) (preorder x)).
      { rewrite cut_filter, <- skipn_map. f_equal.
        rewrite <- (preorder_depth_snd 0 x), <- (trace_preorder 0 Next x He), map_map, Et, filter_app, map_app.
        cbn [filter entering fst snd map]. rewrite app_nil_r. auto. }
      assert (Hx : In x (preorder_list l)) by (apply Hin; left; auto).
      destruct (cut (S j) A) as [|i rest] eqn:Ec.
      * cbn [filter map] in Hm. rewrite <- Hm. inversion H1; subst. exact (inside_leave F ops t l Hfin x Hx).
      * rewrite <- Hm.
        assert (Hall : Forall (fun i => 0 < fst (fst i))%Z (i :: rest)).
        { apply Forall_forall. intros k Hk. rewrite <- Ec in Hk. unfold A in Hk. cbn [cut entering fst snd] in Hk.
          apply cut_sub in Hk. cbn [trace_kids] in Hk.
          apply in_app_iff in Hk as [Hk|Hk]; [apply trace_range in Hk|apply trace_list_range in Hk]; lia. }
        assert (Hu : ups (i :: rest) < loop_fuel nodes).
        { rewrite <- Ec. pose proof (ups_cut A (S j)). pose proof (ups_trace 0 Next x He) as Hu. rewrite Et, ups_app in Hu.
          pose proof (size_le l x Hx). pose proof enough. lia. }
        inversion Hall as [|? ? _ Hall']; subst.
        pose proof (inside_run F t w (i :: rest) _ (loop_fuel nodes) H1 ltac:(congruence) Hu ltac:(simpl; lia) Hall') as G.
        eapply enum_rel_map in G; [exact G|]. intros a b [_ G2]; auto.
Qed.
End Inside.

(** What the walk yields from here on, without depths, with depths, and with tokens skipped. *)
Lemma rest_thm {T} F (ops : list (op T)) t l w tr d : finished F ops t l ->
  wrun F (t_nodes t) w tr (WalkIt None d) -> ups tr < loop_fuel (t_nodes t) ->
  enumerates_nodes (walk_next F (t_nodes t)) w (map snd (filter entering tr)) /\
  exists items, enumerates (walk_depths_next F (t_nodes t)) w items /\
    map (fun i => (fst i, view (snd i))) items = map (fun i => (fst i, rview (snd i))) (map item_of (filter entering tr)).
Proof.
  intros Hfin H Hu. split.
  - pose proof (wrun_walk F (t_nodes t) _ _ _ _ H Hu) as G. eapply enum_rel_map in G; [exact G|]. intros a b [_ G2]; auto.
  - pose proof (wrun_depths F (t_nodes t) _ _ _ _ H Hu) as G.
    eapply enum_rel_map with (f := fun i => (fst i, view (snd i)))
      (g := fun i : Z * event * rose T => (fst (fst i), rview (snd i))) in G.
    + destruct G as (it & H1 & H2). exists it. split; auto. rewrite H2, map_map. auto.
    + intros [e n] [[dp e'] x] [H1 [_ H2]]. simpl in *. subst. f_equal. auto.
Qed.

(** ** C56 *)
(** [tree.walk()], asked any number of times in any way.  The nodes are those of the document in order, each taken by one
    question whichever it is; and it can be continued as a walk, with depths, without tokens, or inside. *)
Theorem C56_tree : forall T F (ops : list (op T)) t l asks, finished F ops t l ->
  exists w answers, ask_walk F (t_nodes t) (tree_walk t) asks = Ok (w, answers) /\
    map (option_map (fun a => (fst a, view (snd a)))) answers =
    map (option_map (fun a => (fst a, rview (snd a)))) (told (flat_map (preorder_depth 0) l) asks) /\
    enumerates_nodes (walk_next F (t_nodes t)) w (skipn (length asks) (preorder_list l)) /\
    (exists items, enumerates (walk_depths_next F (t_nodes t)) w items /\
       map (fun i => (fst i, view (snd i))) items =
       map (fun i => (fst i, rview (snd i))) (skipn (length asks) (flat_map (preorder_depth 0) l))) /\
    (forall fuel, length (preorder_list l) < fuel ->
       enumerates_nodes (skip_next fuel (walk_next F (t_nodes t))) w (filter has_kids (skipn (length asks) (preorder_list l)))) /\
    enumerates_nodes (inside_next F (t_nodes t)) w (inside_rest l (length asks)).
Proof.
  intros T F ops t l asks Hf. pose proof (WalkThms.fin_rep _ _ _ _ Hf) as Hrep. pose proof (fin_fits _ _ _ _ Hf) as Hfits.
  destruct (tree_run F t l Hrep Hfits) as [d H].
  assert (Hu : ups (trace_list 0 l) < loop_fuel (t_nodes t)).
  { pose proof (ups_trace_list 0 l). pose proof (size_l_le_fuel t l Hrep). lia. }
  destruct (ask_thm F (t_nodes t) asks _ _ _ H Hu) as (w & an & E & Ev & Hw). exists w, an.
  assert (Ei : map item_of (filter entering (trace_list 0 l)) = flat_map (preorder_depth 0) l) by apply trace_list_preorder.
  rewrite Ei in Ev. split; auto. split; auto.
  pose proof (ups_cut (trace_list 0 l) (length asks)).
  destruct (rest_thm F ops t l w _ d Hf Hw ltac:(lia)) as [G1 G2].
  rewrite cut_filter, <- skipn_map, trace_list_nodes in G1. split; auto.
  split; [rewrite cut_filter, <- skipn_map, Ei in G2; exact G2|].
  split.
  { intros fuel Hl. apply skip_enumerates; auto. rewrite skipn_length. lia. }
  destruct (Nat.le_gt_cases (length asks) (size_l l)) as [Hle|Hgt].
  - apply (inside_mix F ops t l Hf l [] (length asks) w d); auto.
    + intros y Hy. apply preorder_list_top; auto.
    + simpl; auto.
    + rewrite app_nil_r; auto.
  - assert (Hc : cut (length asks) (trace_list 0 l) = []).
    { assert (Hen : entered (trace_list 0 l) = size_l l).
      { unfold entered, size_l. rewrite <- (trace_list_nodes 0 l), map_length. auto. }
      rewrite <- (app_nil_r (trace_list 0 l)), cut_over by lia. apply cut_nil. }
    rewrite Hc in Hw. inversion Hw; subst.
    assert (Hr : forall (s : list (rose T)) j, size_l s < j -> inside_rest s j = []).
    { clear. induction s as [|x s IH]; intros j Hj; auto. rewrite size_l_cons in Hj. unfold size in Hj. cbn [inside_rest].
      destruct (Nat.leb_spec j (length (preorder x))); [lia|]. apply IH. lia. }
    rewrite Hr by auto. apply inside_stopped.
Qed.
Print Assumptions C56_tree.

(** [n.walk()]: the depths are relative to [n]; [inside()] is bounded by [n] and the siblings after it that the walk has
    reached. *)
Theorem C56_node : forall T F (ops : list (op T)) t l p s1 x s2 n pre k post asks, finished F ops t l ->
  In (p, s1 ++ x :: s2) (sibling_lists l) -> tree_get t (r_id x) = Some n ->
  flat_map (preorder_depth 0) l = pre ++ (k, x) :: post ->
  let coming := map (fun i => (fst i - k, snd i)%Z) ((k, x) :: post) in
  exists w answers, ask_walk F (t_nodes t) (node_walk F n) asks = Ok (w, answers) /\
    map (option_map (fun a => (fst a, view (snd a)))) answers =
    map (option_map (fun a => (fst a, rview (snd a)))) (told coming asks) /\
    enumerates_nodes (walk_next F (t_nodes t)) w (skipn (length asks) (map snd coming)) /\
    (exists items, enumerates (walk_depths_next F (t_nodes t)) w items /\
       map (fun i => (fst i, view (snd i))) items =
       map (fun i => (fst i, rview (snd i))) (skipn (length asks) coming)) /\
    (length asks <= length (preorder_list (x :: s2)) ->
       enumerates_nodes (inside_next F (t_nodes t)) w (inside_rest (x :: s2) (length asks))).
Proof.
  intros T F ops t l p s1 x s2 n pre k post asks Hf Hs En E coming.
  pose proof (WalkThms.fin_rep _ _ _ _ Hf) as Hrep. pose proof (fin_fits _ _ _ _ Hf) as Hfits.
  pose proof E as E0. fold (preorder_depth_list 0 l) in E. rewrite <- (trace_list_preorder 0 l) in E.
  apply map_filter_split in E as (tr1 & [[k' e'] x'] & tr2 & Et & Hen & Ei & _ & E2). simpl in Ei. injection Ei as -> ->.
  assert (He : e' <> Up) by (intros ->; discriminate).
  assert (Hx : In x (preorder_list l)).
  { rewrite <- (preorder_depth_list_snd 0 l). unfold preorder_depth_list. rewrite E0, map_app. apply in_app_iff. simpl. auto. }
  unfold node_walk. rewrite (node_walk_id F ops t l Hf n x En Hx).
  pose proof (mid_run_next F t l Hrep Hfits _ _ _ _ _ He Et) as Hr.
  set (B := (0%Z, Next, x) :: map (shift (- k)) tr2) in *.
  assert (Hu : ups B < loop_fuel (t_nodes t)).
  { pose proof (ups_trace_list 0 l) as Hu. rewrite Et, ups_app in Hu. pose proof (size_l_le_fuel t l Hrep).
    unfold B. change (?a :: ?b) with ([a] ++ b) in *. rewrite ups_app, ups_shift in *.
    assert (ups [(0%Z, Next, x)] = 0) as -> by auto. lia. }
  assert (EB : map item_of (filter entering B) = coming).
  { unfold B, coming. cbn [filter entering fst snd map]. unfold item_of at 1. cbn [fst snd]. f_equal; [f_equal; lia|].
    rewrite filter_shift, <- E2, !map_map. apply map_ext. intros [[d0 e0] y]. reflexivity. }
  destruct (ask_thm F (t_nodes t) asks _ _ _ Hr Hu) as (w & an & Ea & Ev & Hw). exists w, an.
  rewrite EB in Ev. split; auto. split; auto.
  pose proof (ups_cut B (length asks)).
  destruct (rest_thm F ops t l w _ _ Hf Hw ltac:(lia)) as [G1 G2]. rewrite cut_filter, <- skipn_map in G1, G2.
  split.
  { rewrite <- EB. rewrite map_map. exact G1. }
  split; [rewrite EB in G2; exact G2|].
  intros Hj.
  pose proof (rep_siblings _ _ _ _ Hrep Hs) as Hrs. rewrite flat_list_app in Hrs. apply rep_app in Hrs as [_ Hrs].
  assert (Hin : forall y, In y (x :: s2) -> In y (preorder_list l)).
  { intros y Hy. assert (Hy2 : In y (s1 ++ x :: s2)) by (apply in_app_iff; auto). destruct Hs as [Hs|Hs].
    - injection Hs as <- Hs. rewrite <- Hs in Hy2. apply preorder_list_top; auto.
    - apply in_map_iff in Hs as (z & Hz1 & Hz2). injection Hz1 as <- Hz. eapply (preorder_list_kid l z y Hz2). rewrite Hz; auto. }
  assert (Hsz : size_l (x :: s2) <= size_l l).
  { assert (Hsub : size_l (x :: s2) <= size_l (s1 ++ x :: s2)).
    { unfold size_l, preorder_list. rewrite flat_map_app, app_length. lia. }
    destruct Hs as [Hs|Hs]; [injection Hs as <- ->; auto|].
    apply in_map_iff in Hs as (z & Hz1 & Hz2). injection Hz1 as <- Hz. pose proof (size_le l z Hz2) as Hz3.
    rewrite size_eq, Hz in Hz3. lia. }
  pose proof (fits_size F t l Hrep Hfits) as Hfs.
  pose proof (wrun_forest F (t_nodes t) (x :: s2) _ _ 0%Z Hrs ltac:(unfold in_range; lia)) as Ha.
  destruct (wrun_prefix F (t_nodes t) _ _ _ Ha _ _ Hr) as (c & Hc & Huc).
  pose proof (wrun_app _ _ _ _ _ _ _ Ha Hc) as Hac.
  destruct (ask_thm F (t_nodes t) asks _ _ _ Hac ltac:(lia)) as (w' & an' & Ea' & _ & Hw').
  assert (w' = w) by congruence. subst w'.
  eapply (inside_mix F ops t l Hf (x :: s2) c (length asks)); eauto.
  destruct c as [|[[dd e0] y] c]; simpl; auto. pose proof (wrun_cons_state _ _ _ _ _ _ _ _ Hc) as Hst.
  unfold after in Hst. simpl in Hst. destruct (pid p); [|discriminate]. simpl in Hst. inversion Hst; subst. split; [lia|auto].
Qed.
Print Assumptions C56_node.

(** [n.walk_from()]: what follows the subtree of [n], with depths relative to [n]. *)
Theorem C56_from : forall T F (ops : list (op T)) t l x n pre k post asks, finished F ops t l ->
  In x (preorder_list l) -> tree_get t (r_id x) = Some n ->
  flat_map (preorder_depth 0) l = pre ++ preorder_depth k x ++ post ->
  let coming := map (fun i => (fst i - k, snd i)%Z) post in
  exists w answers, ask_walk F (t_nodes t) (node_walk_from F n) asks = Ok (w, answers) /\
    map (option_map (fun a => (fst a, view (snd a)))) answers =
    map (option_map (fun a => (fst a, rview (snd a)))) (told coming asks) /\
    enumerates_nodes (walk_next F (t_nodes t)) w (skipn (length asks) (map snd coming)) /\
    (exists items, enumerates (walk_depths_next F (t_nodes t)) w items /\
       map (fun i => (fst i, view (snd i))) items =
       map (fun i => (fst i, rview (snd i))) (skipn (length asks) coming)).
Proof.
  intros T F ops t l x n pre k post asks Hf Hx En E coming.
  pose proof (WalkThms.fin_rep _ _ _ _ Hf) as Hrep. pose proof (fin_fits _ _ _ _ Hf) as Hfits.
  destruct (trace_list_sub x l 0 Hx) as (tr1 & k' & e & tr2 & Et & He).
  assert (Hp : k' = k /\ map item_of (filter entering tr2) = post).
  { pose proof (trace_list_preorder 0 l) as Hn. unfold preorder_depth_list in Hn.
    rewrite Et, !filter_app, !map_app, E in Hn.
    rewrite (trace_preorder k' e x He) in Hn.
    assert (Hd : NoDup (map snd (pre ++ preorder_depth k x ++ post))).
    { rewrite <- E. change (flat_map (preorder_depth 0) l) with (preorder_depth_list 0 l).
      rewrite preorder_depth_list_snd. eapply nodup_preorder; eauto. }
    pose proof (f_equal (map snd) Hn) as Hm. rewrite !map_app, !preorder_depth_snd in Hm. rewrite !map_app, preorder_depth_snd in Hd.
    destruct x as [i kk d sp kids]. cbn [preorder app] in Hm, Hd.
    destruct (split_unique _ _ _ _ _ (eq_sym Hm) Hd) as [Hl _].
    assert (Hlen : length (map (fun i : Z * event * rose T => (fst (fst i), snd i)) (filter entering tr1)) = length pre).
    { apply (f_equal (@length _)) in Hl. rewrite !map_length in *. congruence. }
    apply app_eq_app_len in Hn as [_ Hn]; auto. cbn [preorder_depth app] in Hn. injection Hn as -> Hn. split; auto.
    apply app_inv_head in Hn. exact Hn. }
  destruct Hp as [-> Hp].
  unfold node_walk_from. rewrite (node_walk_id F ops t l Hf n x En Hx).
  pose proof (leave_run_at F t l Hrep Hfits tr1 k e x tr2 He Hx Et) as Hr.
  set (B := (0%Z, Up, x) :: map (shift (- k)) tr2) in *.
  assert (Hu : ups B < loop_fuel (t_nodes t)).
  { pose proof (ups_trace_list 0 l) as Hu. rewrite Et, !ups_app in Hu.
    assert (Hf2 : loop_fuel (t_nodes t) = S (S (size_l l))) by (unfold loop_fuel; rewrite (tr_length _ _ Hrep); auto).
    unfold B. change (?a :: ?b) with ([a] ++ b) in *. rewrite ups_app, ups_shift in *.
    assert (ups [(0%Z, Up, x)] = 1) as -> by auto. lia. }
  assert (EB : map item_of (filter entering B) = coming).
  { unfold B, coming. cbn [filter entering fst snd map]. rewrite filter_shift, <- Hp, !map_map. apply map_ext.
    intros [[d0 e0] y]. reflexivity. }
  destruct (ask_thm F (t_nodes t) asks _ _ _ Hr Hu) as (w & an & Ea & Ev & Hw). exists w, an.
  rewrite EB in Ev. split; auto. split; auto.
  pose proof (ups_cut B (length asks)).
  destruct (rest_thm F ops t l w _ _ Hf Hw ltac:(lia)) as [G1 G2]. rewrite cut_filter, <- skipn_map in G1, G2.
  split; [rewrite <- EB, map_map; exact G1|rewrite EB in G2; exact G2].
Qed.
Print Assumptions C56_from.

(** Taking the node itself from [n.walk()] and going on inside: the strict descendants of [n] if it has any; otherwise not
    nothing, but the next sibling of [n] with its descendants. *)
Theorem C56_descendants : forall T F (ops : list (op T)) t l p s1 x s2 n, finished F ops t l ->
  In (p, s1 ++ x :: s2) (sibling_lists l) -> tree_get t (r_id x) = Some n ->
  exists w m, walk_next F (t_nodes t) (node_walk F n) = Ok (w, Some m) /\ view m = rview x /\
    enumerates_nodes (inside_next F (t_nodes t)) w
      match r_kids x, s2 with
      | [], [] => []
      | [], y :: _ => preorder y
      | ks, _ => preorder_list ks
      end.
Proof.
  intros T F ops t l p s1 x s2 n Hf Hs En.
  assert (Hx : In x (preorder_list l)).
  { assert (Hy2 : In x (s1 ++ x :: s2)) by (apply in_app_iff; simpl; auto). destruct Hs as [Hs|Hs].
    - injection Hs as <- Hs. rewrite <- Hs in Hy2. apply preorder_list_top; auto.
    - apply in_map_iff in Hs as (z & Hz1 & Hz2). injection Hz1 as <- Hz. eapply (preorder_list_kid l z x Hz2). rewrite Hz; auto. }
  assert (Hd : exists pre k post, flat_map (preorder_depth 0) l = pre ++ (k, x) :: post).
  { rewrite <- (preorder_depth_list_snd 0 l) in Hx. apply in_map_iff in Hx as ([k y] & Ey & Hy). simpl in Ey. subst y.
    apply in_split in Hy as (pre & post & Hy). exists pre, k, post. exact Hy. }
  destruct Hd as (pre & k & post & Hd).
  destruct (C56_node T F ops t l p s1 x s2 n pre k post [AskNode] Hf Hs En Hd) as (w & an & E & Ev & _ & _ & Hi).
  cbn [ask_walk] in E. destruct (walk_next F (t_nodes t) (node_walk F n)) as [[w1 a]|e|]; try discriminate.
  injection E as -> <-. cbn [map told option_map fst snd] in Ev. destruct a as [m|]; [|discriminate].
  cbn [option_map fst snd] in Ev. exists w, m. split; auto. split; [congruence|].
  specialize (Hi ltac:(destruct x; simpl; lia)). destruct x as [i kk d sp kids]. cbn [inside_rest r_kids length preorder] in *.
  destruct kids as [|c ks]; exact Hi.
Qed.
Print Assumptions C56_descendants.

Example C56_inhabited : exists w answers,
  ask_walk flavor_default (t_nodes demo_tree) (tree_walk demo_tree) [AskDepth; AskNode; AskDepth] = Ok (w, answers) /\
  map (option_map (fun a => (fst a, node_value (snd a)))) answers = [Some (Some 0%Z, 10); Some (None, 1); Some (Some 1%Z, 11)] /\
  map r_data (inside_rest demo_doc 3) = [2; 12; 3] /\ inside_rest demo_doc 6 = [] /\
  map r_data (skipn 3 (preorder_list demo_doc)) = [2; 12; 3; 4].
Proof. eexists _, _. vm_compute. split; [reflexivity|]. repeat split. Qed.

Example C56_node_inhabited :
  let x := Nd 4 KWrap 11 (Span 3 5) [ Nd 2 KLeaf 2 (Span 3 5) []; Nd 3 KOpen 12 (Span 5 5) [] ] in
  let y := Nd 1 KLeaf 1 (Span 0 3) [] in
  finished flavor_default demo_ops demo_tree demo_doc /\
  (exists p, In (p, [] ++ y :: [x; Nd 5 KLeaf 3 (Span 5 5) []]) (sibling_lists demo_doc)) /\
  (exists n, tree_get demo_tree (r_id y) = Some n) /\
  (exists pre post, flat_map (preorder_depth 0) demo_doc = pre ++ (1%Z, x) :: post) /\
  (exists pre post, flat_map (preorder_depth 0) demo_doc = pre ++ preorder_depth 1 x ++ post) /\
  map r_data (inside_rest [y; x] 1) = [11; 2; 12].
Proof.
  split; [exact demo_finished|]. vm_compute. split; [eexists; right; left; reflexivity|]. split; [eexists; reflexivity|].
  split; [eexists [_; _], _; reflexivity|]. split; [eexists [_; _], _; reflexivity|auto].
Qed.
