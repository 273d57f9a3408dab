(** Property theorems: the law of walk events, stated on the links of the nodes (C20). *)
From Coq Require Import Lia Permutation.
From Verif Require Import Base Pointer Index Tree Builder Hist Node Iter Edit Spec SpecEvents SpecEdit SpecModified Rep Marks Refine TreeRep
  Enum Walk WalkTree WalkGen WalkThms Nav Modify PropsTree PropsEdit PropsModified PropsSafe PropsWith Demo.

Section Law.
Context {T : Type}.
Variable F : flavor.
Variable nodes : list (links T).

Lemma followed_nil : followed nodes (T := T) [].
Proof. intros [|? pre] a post E; discriminate. Qed.
Lemma followed_cons a items : hd_error items = follow nodes a -> followed nodes items -> followed nodes (a :: items).
Proof.
  intros H1 H2 [|b pre] c post E; simpl in E; injection E as -> E; [subst; auto|eapply H2; eauto].
Qed.

Lemma wrun_law w tr d : wrun F nodes w tr (WalkIt None d) ->
  Forall (fun i => - isize_max F - 1 < fst (fst i) < isize_max F)%Z tr ->
  exists items, enumerates (total (walk_events_next F nodes)) w items /\ Forall2 (shows_ev nodes) items tr /\
    hd_error items = match wk_node w with None => None | Some (i, e) => option_map (pair e) (node_at nodes i) end /\
    (tr = [] -> wk_node w = None) /\ followed nodes items.
Proof.
  intros H. remember (WalkIt None d) as w2. induction H as [|w w1 w2 e n x tr E Hs H IH]; subst; intros Hr.
  - exists []. split; [apply walk_events_stuck|]. repeat split; auto. apply followed_nil.
  - inversion Hr as [|? ? Hd Hr2]; subst. destruct (IH eq_refl Hr2) as (items & H1 & H2 & H3 & H4 & H5).
    exists ((e, n) :: items). split; [apply enumerates_cons; exists w1; unfold total; rewrite E; auto|].
    split; [constructor; auto; split; auto|].
    assert (Hw : forall i e', wk_node w1 = Some (i, e') -> exists m, node_at nodes i = Some m).
    { intros i e' Ew. destruct tr as [|y tr]; [rewrite (H4 eq_refl) in Ew; discriminate|].
      inversion H2 as [|a0 ? items0 ? Ha]; subst. rewrite Ew in H3. simpl in H3. destruct (node_at nodes i); eauto. discriminate. }
    clear IH H Hr Hr2 H4. destruct w as [pos dz]. simpl in *. unfold walk_events_next in E. cbn [wk_node wk_depth] in E.
    destruct pos as [[i e0]|]; [|discriminate]. unfold node_at at 1. destruct (nth_error nodes i) as [lk|] eqn:En; [|discriminate].
    destruct (walk_step F lk e0 dz) as [d' pos'] eqn:Es. injection E as <- <- <-. split; auto. split; [discriminate|].
    apply followed_cons; auto. rewrite H3. simpl in Hw |- *.
    unfold follow, node_first, node_next, node_parent. simpl snd.
    assert (D : isize_dec F dz = Some (dz - 1)%Z) by (unfold isize_dec; destruct (Z.leb_spec (- isize_max F - 1) (dz - 1)); auto; lia).
    assert (U : isize_inc F dz = Some (dz + 1)%Z) by (unfold isize_inc; destruct (Z.leb_spec (dz + 1) (isize_max F)); auto; lia).
    unfold walk_step in Es. rewrite D, U in Es.
    assert (Hup : (d', pos') = match l_next lk with Some n => (dz, Some (n, Next)) | None => ((dz - 1)%Z, match l_parent lk with Some p => Some (p, Up) | None => None end) end ->
      match pos' with None => None | Some (i, e) => option_map (pair e) (node_at nodes i) end =
      match node_opt nodes (l_next lk), node_opt nodes (l_parent lk) with Some m, _ => Some (Next, m) | None, Some p => Some (Up, p) | None, None => None end).
    { intros Eq. destruct (l_next lk) as [m|].
      - injection Eq as -> ->. simpl. destruct (Hw m Next eq_refl) as [q ->]. auto.
      - injection Eq as -> ->. destruct (l_parent lk) as [p|]; simpl; auto. }
    destruct e0.
    1,2: destruct (l_first lk) as [c|]; [injection Es as <- <-; simpl; destruct (Hw c Down eq_refl) as [q ->]; reflexivity|simpl; apply Hup; auto].
    apply Hup; auto.
Qed.
End Law.

Section Tree.
Context {T : Type}.
Variable F : flavor.
Variable t : tree T.
Variable l : list (rose T).
Hypothesis Hg : good F t l.

Lemma law_tree : exists items, enumerates (total (walk_events_next F (t_nodes t))) (tree_walk t) items /\
  Forall2 (shows_ev (t_nodes t)) items (trace_list 0 l) /\
  hd_error items = option_map (pair Next) (tree_first t) /\ followed (t_nodes t) items.
Proof.
  destruct (tree_run F t l (g_fin_rep F t l Hg) (g_fin_fits F t l Hg)) as [d H].
  pose proof (fits_size F t l (g_fin_rep F t l Hg) (g_fin_fits F t l Hg)) as Hs.
  destruct (wrun_law F (t_nodes t) _ _ _ H) as (items & H1 & H2 & H3 & _ & H5).
  { apply Forall_forall. intros i Hi. apply trace_list_range in Hi. lia. }
  exists items. split; auto. split; auto. split; auto. rewrite H3. unfold tree_walk, walk_new, tree_first.
  simpl. destruct (t_first t); auto.
Qed.

Lemma shift_range k tr : (0 <= k < Z.of_nat (size_l l))%Z -> Forall (fun i : Z * event * rose T => (0 <= fst (fst i) < Z.of_nat (size_l l))%Z) tr ->
  Forall (fun i => - isize_max F - 1 < fst (fst i) < isize_max F)%Z (map (shift (- k)) tr).
Proof.
  intros Hk H. pose proof (fits_size F t l (g_fin_rep F t l Hg) (g_fin_fits F t l Hg)) as Hs.
  induction H; simpl; constructor; auto. unfold shift. simpl. lia.
Qed.

Lemma law_node n i : tree_get t i = Some n -> exists items, enumerates (total (walk_events_next F (t_nodes t))) (node_walk F n) items /\
  hd_error items = Some (Next, n) /\ followed (t_nodes t) items.
Proof.
  intros En. pose proof (g_fin_rep F t l Hg) as R. assert (Hi : i < length (t_nodes t)).
  { unfold tree_get, node_at in En. apply nth_error_Some. intros Hx. rewrite Hx in En. discriminate. }
  destruct (preorder_of_id _ _ _ R Hi) as (x & Hx & <-).
  pose proof (fits_size F t l R (g_fin_fits F t l Hg)) as Hs.
  destruct (trace_list_sub x l 0%Z Hx) as (tr1 & k & e & tr2 & Et & He).
  rewrite trace_eq, <- app_comm_cons in Et.
  pose proof (mid_run_next F t l R (g_fin_fits F t l Hg) _ _ _ _ _ He Et) as Hr.
  unfold node_walk. rewrite (g_node_walk_id F t l Hg n x En Hx).
  destruct (wrun_law F (t_nodes t) _ _ _ Hr) as (items & H1 & H2 & H3 & _ & H5).
  { assert (Hall : Forall (fun i : Z * event * rose T => (0 <= fst (fst i) < Z.of_nat (size_l l))%Z) (trace_list 0 l)).
    { apply Forall_forall. intros j Hj. apply trace_list_range in Hj. lia. }
    rewrite Et in Hall. apply Forall_app in Hall as [_ Hall]. inversion Hall as [|? ? Hk Hall2]; subst. simpl in Hk.
    constructor; [simpl; lia|]. apply shift_range; auto. }
  exists items. split; auto. split; auto. rewrite H3. simpl. unfold tree_get in En. rewrite En. auto.
Qed.

Lemma entries_trace i : forall items tr, Forall2 (shows_ev (t_nodes t)) items tr ->
  entries i items = length (filter (fun x => Nat.eqb (r_id x) i) (map snd (filter entering tr))) /\
  exits i items = length (filter (fun x => Nat.eqb (r_id x) i) (map snd (filter (fun j => negb (entering j)) tr))).
Proof.
  induction 1 as [|[e n] [[d e'] x] items tr [H1 H2] H [IH1 IH2]]; auto. simpl in H1, H2. subst e'.
  pose proof (shows_id _ _ _ H2) as Hid. unfold entries, exits in *. cbn [filter entering fst snd negb].
  destruct e; [change (@entering T (d, Next, x)) with true|change (@entering T (d, Down, x)) with true|change (@entering T (d, Up, x)) with false];
    cbn [negb map filter fst snd]; rewrite ?Hid; split; auto; destruct (Nat.eqb (r_id x) i); cbn [length]; auto.
Qed.

Definition inner (x : rose T) : bool := match r_kids x with [] => false | _ => true end.
Lemma exits_perm x : forall d e, e <> Up -> Permutation (map snd (filter (fun j => negb (entering j)) (trace d e x))) (filter inner (preorder x)).
Proof.
  induction x as [id k dt sp kids IH] using rose_ind'. intros d e He. rewrite trace_eq. cbn [r_kids].
  assert (E : negb (@entering T (d, e, Nd id k dt sp kids)) = false) by (destruct e; auto; congruence).
  cbn [filter]. rewrite E. destruct kids as [|c ks]; [simpl; auto|].
  rewrite filter_app, map_app. simpl (filter _ [_]). simpl (map snd [_]). cbn [preorder]. cbn [filter]. unfold inner at 1. cbn [r_kids].
  eapply perm_trans; [apply Permutation_app_comm|]. simpl app. constructor. cbn [trace_kids].
  assert (G : forall ks, Forall (fun x => forall d e, e <> Up -> Permutation (map snd (filter (fun j => negb (entering j)) (trace d e x))) (filter inner (preorder x))) ks ->
    forall d, Permutation (map snd (filter (fun j => negb (entering j)) (trace_list d ks))) (filter inner (flat_map preorder ks))).
  { clear. unfold trace_list. induction 1 as [|y ks Hy _ IHk]; intros d; simpl; auto.
    rewrite !filter_app, map_app. apply Permutation_app; auto. apply Hy. discriminate. }
  inversion IH as [|? ? Hc Hks]; subst. cbn [flat_map]. rewrite !filter_app, map_app. apply Permutation_app; auto. apply Hc. discriminate.
Qed.
Lemma exits_perm_list : forall ks d, Permutation (map snd (filter (fun j => negb (entering j)) (trace_list d ks))) (filter inner (preorder_list ks)).
Proof.
  unfold trace_list, preorder_list. induction ks as [|y ks IHk]; intros d; simpl; auto.
  rewrite !filter_app, map_app. apply Permutation_app; auto. apply exits_perm. discriminate.
Qed.

Lemma once : forall (xs : list (rose T)) x, NoDup (map r_id xs) -> In x xs -> length (filter (fun y => Nat.eqb (r_id y) (r_id x)) xs) = 1.
Proof.
  induction xs as [|y xs IH]; intros x Hd Hx; [destruct Hx|]. inversion Hd as [|? ? Hn Hd2]; subst. simpl.
  destruct Hx as [->|Hx].
  - rewrite Nat.eqb_refl. simpl. f_equal. apply length_zero_iff_nil. destruct (filter _ xs) as [|z r] eqn:E; auto.
    assert (Hz : In z (filter (fun y => Nat.eqb (r_id y) (r_id x)) xs)) by (rewrite E; left; auto).
    apply filter_In in Hz as [Hz Ez]. apply Nat.eqb_eq in Ez. exfalso. apply Hn. rewrite <- Ez. apply in_map. auto.
  - destruct (Nat.eqb_spec (r_id y) (r_id x)) as [E|E]; auto. exfalso. apply Hn. rewrite E. apply in_map. auto.
Qed.

Lemma law_each i n : tree_get t i = Some n -> forall items, enumerates (total (walk_events_next F (t_nodes t))) (tree_walk t) items ->
  entries i items = 1 /\ exits i items = if has_children n then 1 else 0.
Proof.
  intros En items Hi. destruct law_tree as (items' & H1 & H2 & _). rewrite (enumerates_fun _ _ _ _ Hi H1). clear items Hi.
  pose proof (g_fin_rep F t l Hg) as R. assert (Hi : i < length (t_nodes t)).
  { unfold tree_get, node_at in En. apply nth_error_Some. intros Hx. rewrite Hx in En. discriminate. }
  destruct (preorder_of_id _ _ _ R Hi) as (x & Hx & <-). pose proof (tr_nodup _ _ R) as Hd. rewrite ids_l_preorder in Hd.
  destruct (entries_trace (r_id x) _ _ H2) as [-> ->]. rewrite trace_list_nodes. split; [apply once; auto|].
  pose proof (exits_perm_list l 0%Z) as P.
  assert (L : forall a b : list (rose T), Permutation a b -> length (filter (fun y => Nat.eqb (r_id y) (r_id x)) a) = length (filter (fun y => Nat.eqb (r_id y) (r_id x)) b)).
  { clear. induction 1; simpl; auto; repeat match goal with |- context [Nat.eqb ?a ?b] => destruct (Nat.eqb a b) end; simpl; congruence. }
  rewrite (L _ _ P). destruct (in_sibling_lists _ _ Hx) as (p & s1 & s2 & Hs).
  pose proof (at_node t l R _ _ _ _ _ Hs En) as ->. unfold has_children. cbn [snd l_first links_of].
  assert (K : filter (fun y => Nat.eqb (r_id y) (r_id x)) (filter inner (preorder_list l)) = filter inner (filter (fun y => Nat.eqb (r_id y) (r_id x)) (preorder_list l))).
  { clear. induction (preorder_list l) as [|y s IH]; simpl; auto.
    destruct (inner y) eqn:E1, (Nat.eqb (r_id y) (r_id x)) eqn:E2; simpl; rewrite ?E1, ?E2, ?IH; auto. }
  rewrite K. assert (One : filter (fun y => Nat.eqb (r_id y) (r_id x)) (preorder_list l) = [x]).
  { pose proof (once _ _ Hd Hx) as Ho. assert (Hin : In x (filter (fun y => Nat.eqb (r_id y) (r_id x)) (preorder_list l))) by (apply filter_In; rewrite Nat.eqb_refl; auto).
    revert Ho Hin. generalize (filter (fun y => Nat.eqb (r_id y) (r_id x)) (preorder_list l)). intros [|a [|b r]] Ho Hin; try discriminate.
    destruct Hin as [->|[]]. auto. }
  rewrite One. simpl. unfold inner. destruct (r_kids x); auto.
Qed.
End Tree.

(** walk_events() of a built tree: the first event enters the first node, and every event is followed by the one that the links
    of its node name; every node is entered once, and left once if it has children. *)
Theorem C20_law : forall T F (ops : list (op T)) t l, finished F ops t l ->
  exists items, enumerates (total (walk_events_next F (t_nodes t))) (tree_walk t) items /\
    hd_error items = option_map (pair Next) (tree_first t) /\ followed (t_nodes t) items /\
    forall i n, tree_get t i = Some n -> entries i items = 1 /\ exits i items = if has_children n then 1 else 0.
Proof.
  intros T F ops t l H. pose proof (fin_good F ops t l H) as G. destruct (law_tree F t l G) as (items & H1 & _ & H3 & H4).
  exists items. split; auto. split; auto. split; auto. intros i n E. eapply law_each; eauto.
Qed.
Print Assumptions C20_law.

(** The same from any node: its walk_events() starts with (Next, n) and goes on by the same law, to the end of the tree. *)
Theorem C20_node_law : forall T F (ops : list (op T)) t l i n, finished F ops t l -> tree_get t i = Some n ->
  exists items, enumerates (total (walk_events_next F (t_nodes t))) (node_walk F n) items /\
    hd_error items = Some (Next, n) /\ followed (t_nodes t) items.
Proof. intros T F ops t l i n H. exact (law_node F t l (fin_good F ops t l H) n i). Qed.
Print Assumptions C20_node_law.

(** And in a modified tree. *)
Theorem C58_law : forall T F (t : tree T) l, modified F t l -> fits F t ->
  (exists items, enumerates (total (walk_events_next F (t_nodes t))) (tree_walk t) items /\
    hd_error items = option_map (pair Next) (tree_first t) /\ followed (t_nodes t) items /\
    forall i n, tree_get t i = Some n -> entries i items = 1 /\ exits i items = if has_children n then 1 else 0) /\
  forall i n, tree_get t i = Some n ->
    exists items, enumerates (total (walk_events_next F (t_nodes t))) (node_walk F n) items /\
      hd_error items = Some (Next, n) /\ followed (t_nodes t) items.
Proof.
  intros T F t l M Hf. pose proof (mod_good T F t l M Hf) as G. split.
  - destruct (law_tree F t l G) as (items & H1 & _ & H3 & H4).
    exists items. split; auto. split; auto. split; auto. intros i n E. eapply law_each; eauto.
  - intros i n E. exact (law_node F t l G n i E).
Qed.
Print Assumptions C58_law.

(** How many events there are: one for each node, and one more for each node with children; so at most twice the nodes. *)
Theorem C20_count : forall T F (ops : list (op T)) t l, finished F ops t l ->
  exists events nodes, enumerates (total (walk_events_next F (t_nodes t))) (tree_walk t) events /\
    enumerates (walk_next F (t_nodes t)) (tree_walk t) nodes /\ length nodes = tree_len t /\
    length events = length nodes + length (filter (fun n => has_children n) nodes) /\ length events <= 2 * tree_len t.
Proof.
  intros T F ops t l H. pose proof (fin_good F ops t l H) as G. destruct (law_tree F t l G) as (items & H1 & H2 & _).
  destruct (C19_walk T F ops t l H) as (ns & N1 & N2). exists items, ns.
  assert (L1 : length ns = length (preorder_list l)) by (rewrite <- (map_length view ns), N2, map_length; auto).
  assert (L2 : length ns = tree_len t) by (rewrite L1; unfold tree_len; symmetry; apply tr_length; apply (g_fin_rep F t l G)).
  assert (L3 : length (filter (fun n => has_children n) ns) = length (filter inner (preorder_list l))).
  { clear - N2. revert N2. generalize (preorder_list l). induction ns as [|n ns IH]; intros [|x xs] E; try discriminate; auto. simpl in E.
    injection E as E1 E2 E3 E4 E5. simpl. rewrite E4. unfold inner at 1, has_kids. destruct (r_kids x); simpl; rewrite (IH _ E5); auto. }
  assert (L4 : length items = length ns + length (filter (fun n => has_children n) ns)).
  { assert (E : length items = length (trace_list 0 l)) by (clear - H2; induction H2; simpl; auto).
    rewrite E, L1, L3, <- (trace_list_nodes 0 l), map_length, trace_list_nodes, <- (Permutation_length (exits_perm_list l 0%Z)), map_length.
    clear. induction (trace_list 0 l) as [|i tr IH]; auto. simpl. destruct (entering i); simpl; rewrite IH; lia. }
  split; auto. split; auto. split; auto. split; auto. rewrite L4, L2.
  assert (length (filter (fun n => has_children n) ns) <= length ns) by (clear; induction ns as [|n ns IH]; simpl; auto; destruct (has_children n); simpl; lia). lia.
Qed.
Print Assumptions C20_count.

(** The hypotheses are met by the demo tree (C20) and by a removal from it (C58_inhabited); its events: *)
Example C20_law_inhabited : finished flavor_default demo_ops demo_tree demo_doc /\
  (exists n, tree_get demo_tree 0 = Some n /\ has_children n = true) /\ (exists n, tree_get demo_tree 2 = Some n /\ has_children n = false) /\ 4 < length (events_list demo_doc).
Proof.
  split; [exact demo_finished|]. split; [eexists; split; [vm_compute; reflexivity|reflexivity]|]. split; [eexists; split; [vm_compute; reflexivity|reflexivity]|].
  vm_compute. lia.
Qed.
