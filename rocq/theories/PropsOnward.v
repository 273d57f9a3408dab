(** Property theorems: walks from a node, [inside], [siblings], [find_preceding] and [skip_tokens] in every tree from a builder, also with misused checkpoints (C70). *)
From Coq Require Import Lia Permutation.
From Verif Require Import Base Pointer Index Tree Builder Hist Node Iter Edit Spec SpecReads SpecShape SpecTour SpecOnward SpecEnds Rep Refine TreeRep Enum Walk WalkTree AllHist StepFacts AllWalk AllPlaced Modify
  PropsTree PropsSafe AllReads Nav Skip Demo PropsMisuse Settle Shape Tour PropsShape PropsTour PropsEnds Onward.
Open Scope nat_scope.

Lemma tour_at_ext T (p p' : nat -> option nat) : (forall i, p i = p' i) -> forall (c : place T) at_ d, onward p at_ d c = onward p' at_ d c.
Proof.
  intros H. induction c as [|[y s] c IH]; intros at_ d; simpl; auto. destruct (opt_nat_eqb at_ (Some (r_id y))); auto. f_equal.
  destruct s as [|z s]; [rewrite H; auto|]. rewrite (tour_ext T p p' H (size_l (z :: s))) by auto. destruct (tour_row p' Next d (z :: s)) as [tr [at' d']]. rewrite IH. auto.
Qed.

Lemma subsequence_in A (a b : list A) : subsequence a b -> forall x, In x a -> In x b.
Proof. induction 1; intros y Hy; simpl in *; auto. destruct Hy; auto. Qed.

Section Starts.
Context {T : Type}.
Variable F : flavor.
Variable ops : list (op T).
Variable l : list (rose T).
Hypothesis HF : vec_flavor F.
Let t := tree_so_far F ops.
Hypothesis Hfit : fits F t.
Hypothesis Hl : reads t (tree_first t) l.

Lemma from_run x later above n : located l ((x, later) :: above) -> tree_get t (r_id x) = Some n ->
  makes F t (node_walk_from F n) (onward (named t) (Some (r_id x)) 0%Z ((x, later) :: above)) /\
  subsequence (map snd (filter downwards (onward (named t) (Some (r_id x)) 0%Z ((x, later) :: above)))) (ahead ((x, later) :: above)).
Proof.
  intros Hc Hn. pose proof (history_sees T F ops l HF Hl) as Hs. pose proof (history_within T F ops l HF Hl) as Hw. pose proof (size_len T F ops l HF Hl) as HL. fold t in Hs, Hw, HL.
  pose proof (located_room l _ Hc _ _ _ eq_refl) as R. unfold fits in Hfit. fold (tree_len t) in Hfit.
  rewrite (tour_at_ext T (named t) (par (t_nodes t))) by (intros; apply named_par; auto).
  assert (Hlen : length ((x, later) :: above) <= room ((x, later) :: above)) by (unfold room; lia).
  destruct (onward_run F (t_nodes t) l _ Hs Hw _ ((x, later) :: above) (Some (r_id x)) 0%Z (le_n _) (or_intror Hc)) as (d' & Hr & Hu & Ho).
  - right. exists (r_id x). split; auto. simpl. auto.
  - lia.
  - lia.
  - split; [|exact Ho]. destruct (so_far_id T F ops (r_id x) n HF Hfit Hn) as [_ Ei]. unfold node_walk_from. rewrite Ei.
    eapply run_makes; [reflexivity|exact Hr|]. unfold loop_fuel. unfold tree_len in HL. lia.
Qed.
Lemma at_run x later above n : located l ((x, later) :: above) -> tree_get t (r_id x) = Some n ->
  makes F t (node_walk F n) (tour_at (named t) x later above) /\
  subsequence (map snd (filter downwards (tour_at (named t) x later above))) (preorder x ++ ahead ((x, later) :: above)).
Proof.
  intros Hc Hn. pose proof (history_sees T F ops l HF Hl) as Hs. pose proof (history_within T F ops l HF Hl) as Hw. pose proof (size_len T F ops l HF Hl) as HL. fold t in Hs, Hw, HL.
  pose proof (located_room l _ Hc _ _ _ eq_refl) as R. unfold fits in Hfit. fold (tree_len t) in Hfit. rewrite room_cons in R.
  destruct (located_facts (t_nodes t) l _ Hs Hw _ Hc _ _ _ eq_refl) as [Sx Wx].
  assert (Sz : size_l (x :: later) = S (size_l (r_kids x)) + size_l later) by (rewrite size_l_cons, size_eq; auto).
  assert (Hlen : length above <= room above) by (unfold room; lia).
  assert (HN : forall i, named t i = par (t_nodes t) i) by (intros; apply named_par; auto).
  unfold tour_at. rewrite (tour_ext T _ _ HN (size_l (x :: later))) by auto.
  pose proof (wrun_row F (t_nodes t) _ _ Sx (r_id x) Next 0%Z eq_refl ltac:(discriminate) ltac:(lia) ltac:(lia)) as R1.
  pose proof (tour_ends (t_nodes t) _ _ Wx Next 0%Z) as E1.
  pose proof (row_ups T (par (t_nodes t)) _ (x :: later) Next 0%Z (le_n _) ltac:(discriminate)) as U1.
  pose proof (tour_order (par (t_nodes t)) (x :: later) Next 0%Z ltac:(discriminate)) as O1.
  destruct (tour_row (par (t_nodes t)) Next 0 (x :: later)) as [tr [at_ d]]. cbn [fst] in U1, O1. destruct R1 as [R1 B1].
  rewrite (tour_at_ext T _ _ HN).
  assert (Hab : above = [] \/ located l above) by (inversion Hc; auto).
  destruct (onward_run F (t_nodes t) l _ Hs Hw _ above at_ d (le_n _) Hab E1 ltac:(lia) ltac:(lia)) as (d' & Hr & Hu & Ho).
  split.
  - destruct (so_far_id T F ops (r_id x) n HF Hfit Hn) as [_ Ei]. unfold node_walk. rewrite Ei. eapply run_makes; [reflexivity|eapply wrun_app; eauto|]. rewrite ups_app. unfold loop_fuel. unfold tree_len in HL. lia.
  - rewrite downs_app. unfold ahead. cbn [flat_map snd]. rewrite app_assoc. apply subsequence_app; auto.
Qed.
End Starts.

(** [n.walk()], [n.walk_events()], [n.walk().with_depths()], [n.walk().inside()]: the tour from [n] on. *)
Theorem C70_walk : forall T F (ops : list (op T)) l x later above n, vec_flavor F -> let t := tree_so_far F ops in
  fits F t -> reads t (tree_first t) l -> located l ((x, later) :: above) -> tree_get t (r_id x) = Some n ->
  makes F t (node_walk F n) (tour_at (named t) x later above).
Proof. intros T F ops l x later above n HF t Hfit Hl Hc Hn. apply (at_run F ops l HF Hfit Hl _ _ _ _ Hc Hn). Qed.
Print Assumptions C70_walk.

(** [n.walk_from()]: what follows the climb back to [n]. *)
Theorem C70_walk_from : forall T F (ops : list (op T)) l x later above n, vec_flavor F -> let t := tree_so_far F ops in
  fits F t -> reads t (tree_first t) l -> located l ((x, later) :: above) -> tree_get t (r_id x) = Some n ->
  makes F t (node_walk_from F n) (onward (named t) (Some (r_id x)) 0%Z ((x, later) :: above)).
Proof. intros T F ops l x later above n HF t Hfit Hl Hc Hn. apply (from_run F ops l HF Hfit Hl _ _ _ _ Hc Hn). Qed.
Print Assumptions C70_walk_from.

(** The walks of the tree, with [inside]. *)
Theorem C70_tree_walk : forall T F (ops : list (op T)) l, vec_flavor F -> let t := tree_so_far F ops in
  fits F t -> reads t (tree_first t) l -> makes F t (tree_walk t) (tour (named t) l).
Proof.
  intros T F ops l HF t Hfit Hl. destruct (history_run T F ops l HF Hfit Hl) as (d & H). eapply run_makes; [reflexivity|exact H|].
  unfold loop_fuel. pose proof (row_ups T (named t) (size_l l) l Next 0%Z (le_n _) ltac:(discriminate)) as G.
  pose proof (size_len T F ops l HF Hl) as HL. unfold tree_len in HL. fold t in HL |- *. unfold tour. lia.
Qed.
Print Assumptions C70_tree_walk.

(** Every node has a place, and only one reading of it matters: nodes come in document order from there on, none twice. *)
Theorem C70_order : forall T F (ops : list (op T)) l x pre post n, vec_flavor F -> let t := tree_so_far F ops in
  fits F t -> reads t (tree_first t) l -> preorder_list l = pre ++ x :: post -> tree_get t (r_id x) = Some n ->
  exists items, enumerates (walk_next F (t_nodes t)) (node_walk F n) (n :: items) /\
    subsequence (map view items) (map rview post) /\ NoDup (map fst (n :: items)).
Proof.
  intros T F ops l x pre post n HF t Hfit Hl Hx Hn.
  assert (Hin : In x (preorder_list l)) by (rewrite Hx; apply in_app_iff; simpl; auto).
  assert (exists later above, located l ((x, later) :: above)) as (later & above & Hc).
  { destruct (ancestry_exists l x Hin) as (ch & H). inversion H as [y Hy|y z c Hz Hy]; subst.
    - apply in_split in Hy as (a & b & E). exists b. apply (located_exists l None a x b). left. rewrite E. auto.
    - apply in_split in Hy as (a & b & E). exists b. apply (located_exists l (Some z) a x b). right. apply in_map_iff. exists z. rewrite E. split; auto. eapply ancestry_in; eauto. }
  destruct (at_run F ops l HF Hfit Hl _ _ _ _ Hc Hn) as [(_ & _ & (items & A & B) & _) O]. fold t in A, B, O.
  destruct (placed_reads _ _ (run_placed F HF ops)) as (_ & _ & Hp). specialize (Hp l Hl).
  assert (N : NoDup (map r_id (preorder_list l))) by (eapply Permutation_NoDup; [apply Permutation_sym; exact Hp|apply seq_NoDup]).
  destruct (located_order l _ Hc _ _ _ eq_refl) as (pre' & E). assert (Ex : preorder x = x :: preorder_list (r_kids x)) by (destruct x; auto). rewrite Ex in E, O. simpl in E, O.
  assert (post = preorder_list (r_kids x) ++ ahead ((x, later) :: above)) as ->.
  { rewrite Hx in E. rewrite Hx in N. clear -E N. revert pre' E. induction pre as [|y pre IH]; intros [|z pre'] E; simpl in E.
    - injection E as E. exact E.
    - injection E as <- E. exfalso. simpl in N. inversion N as [|? ? N1 _]. apply N1. rewrite E, map_app. apply in_app_iff. right. simpl. auto.
    - injection E as -> E. exfalso. simpl in N. inversion N as [|? ? N1 _]. apply N1. rewrite map_app. apply in_app_iff. right. simpl. auto.
    - injection E as <- E. simpl in N. inversion N. eapply IH; eauto. }
  (* the first one is x *)
  assert (H0 : exists r, filter downwards (tour_at (named t) x later above) = (0%Z, Next, x) :: r).
  { unfold tour_at. rewrite tour_row_cons, tour_from_eq. destruct (r_kids x) as [|k ks].
    - rewrite opt_eqb_refl. destruct later; [|destruct (tour_row (named t) Next 0 (r :: later)) as [? [? ?]]]; simpl; eauto.
    - destruct (tour_row (named t) Down (0 + 1) (k :: ks)) as [tr [at_ d']]. destruct (opt_nat_eqb at_ (Some (r_id x))) eqn:Ea; rewrite Ea; [|simpl; eauto].
      destruct later; [|destruct (tour_row (named t) Next d' (r :: later)) as [? [? ?]]]; simpl; eauto. }
  destruct H0 as (r & Er). rewrite Er in B, O. simpl in B, O. destruct items as [|n' items]; [discriminate|]. simpl in B. injection B as B1 B2 B3 B4 B.
  assert (Enn : n' = n).
  { apply enumerates_cons in A as (s1 & A & _). unfold walk_next, loop_fuel in A. cbn [walk_loop] in A. unfold node_walk, walk_new, walk_events_next in A. cbn [option_map wk_node wk_depth] in A.
    destruct (so_far_id T F ops (r_id x) n HF Hfit Hn) as [_ Ei]. rewrite Ei in A. unfold tree_get, node_at in Hn. fold t in A. destruct (nth_error (t_nodes t) (r_id x)) as [lx|]; [|discriminate].
    destruct (walk_step F lx Next 0) as [d0 p0]. inversion A. congruence. }
  subst n'. exists items. split; [exact A|].
  assert (O' : subsequence (map snd r) (preorder_list (r_kids x) ++ ahead ((x, later) :: above))).
  { inversion O as [|? ? ? O1|? ? ? O1]; subst; auto. exfalso.
    assert (Hi : In x (preorder_list (r_kids x) ++ ahead ((x, later) :: above))).
    { eapply subsequence_in; [exact O1|]. simpl. auto. }
    rewrite Hx, map_app in N. apply NoDup_remove_2 in N. apply N. apply in_app_iff. right. apply in_map. exact Hi. }
  assert (V : subsequence (map view items) (map rview (preorder_list (r_kids x) ++ ahead ((x, later) :: above)))).
  { rewrite B. clear -O'. induction O'; simpl; constructor; auto. }
  split; auto.
  assert (S' : subsequence (map fst (n :: items)) (map r_id (x :: preorder_list (r_kids x) ++ ahead ((x, later) :: above)))).
  { simpl. unfold view in B1. simpl in B1. change (fst n = r_id x) in B1. rewrite B1. constructor. clear -V.
    assert (G : forall a b, subsequence a b -> subsequence (map (fun v : nat * T * span * bool => fst (fst (fst v))) a) (map (fun v => fst (fst (fst v))) b)) by (induction 1; simpl; constructor; auto).
    apply G in V. rewrite !map_map in V. exact V. }
  rewrite Hx, map_app in N. apply NoDup_app_iff in N as (_ & N & _). revert N S'. generalize (map r_id (x :: preorder_list (r_kids x) ++ ahead ((x, later) :: above))) (map fst (n :: items)). clear.
  intros b a N S'. induction S'; inversion N; subst; auto; constructor; auto. intros Hin. apply H1. clear -Hin S'.
  induction S'; simpl in *; auto. destruct Hin; auto.
Qed.
Print Assumptions C70_order.

(** Every node has a place. *)
Theorem C70_place : forall T (l : list (rose T)) x, In x (preorder_list l) -> exists later above, located l ((x, later) :: above).
Proof.
  intros T l x Hin. destruct (ancestry_exists l x Hin) as (ch & H). inversion H as [y Hy|y z c Hz Hy]; subst.
  - apply in_split in Hy as (a & b & E). exists b. apply (located_exists l None a x b). left. rewrite E. auto.
  - apply in_split in Hy as (a & b & E). exists b. apply (located_exists l (Some z) a x b). right. apply in_map_iff. exists z. rewrite E. split; auto. eapply ancestry_in; eauto.
Qed.

(** ** inside *)
Lemma onward_low T p (c : place T) : forall at_ d, (d <= 0)%Z -> deeper_visits (onward p at_ d c) = [].
Proof.
  induction c as [|[y s] c IH]; intros at_ d Hd; simpl; auto. destruct (opt_nat_eqb at_ (Some (r_id y))); auto. simpl. destruct (Z.ltb_spec 0 d); [lia|auto].
Qed.
Lemma row_first T p (x : rose T) s d e : exists r, fst (tour_row p e d (x :: s)) = (d, e, x) :: r.
Proof.
  rewrite tour_row_cons, tour_from_eq. destruct (r_kids x) as [|k ks].
  - rewrite opt_eqb_refl. destruct s as [|y s]; [|destruct (tour_row p Next d (y :: s)) as [? [? ?]]]; simpl; eauto.
  - destruct (tour_row p Down (d + 1) (k :: ks)) as [tr [at_ d']]. destruct (opt_nat_eqb at_ (Some (r_id x))) eqn:Ea; rewrite Ea; [|simpl; eauto].
    destruct s as [|y s]; [|destruct (tour_row p Next d' (y :: s)) as [? [? ?]]]; simpl; eauto.
Qed.
Lemma deeper_app T (a b : visits (T := T)) : Forall (fun v => 0 < fst (fst v))%Z a -> deeper_visits b = [] -> deeper_visits (a ++ b) = a.
Proof.
  intros H Hb. induction H as [|[[d e] x] a H1 H2 IH]; simpl; auto. simpl in H1. destruct (Z.ltb_spec 0 d); [|lia]. rewrite IH. auto.
Qed.
(** [inside] visits the node and what is inside it, if the nodes in there name the nodes whose children they are. *)
Theorem C70_inside : forall T F (ops : list (op T)) l x n, vec_flavor F -> let t := tree_so_far F ops in
  fits F t -> reads t (tree_first t) l -> In x (preorder_list l) -> tree_get t (r_id x) = Some n ->
  (forall y z, In y (preorder x) -> In z (r_kids y) -> named t (r_id z) = Some (r_id y)) ->
  enumerates_nodes (inside_next F (t_nodes t)) (node_walk F n) (preorder x).
Proof.
  intros T F ops l x n HF t Hfit Hl Hin Hn Hp. destruct (C70_place T l x Hin) as (later & above & Hc).
  destruct (C70_walk T F ops l x later above n HF Hfit Hl Hc Hn) as (_ & _ & _ & G). fold t in G.
  replace (map snd (filter downwards (confined (tour_at (named t) x later above)))) with (preorder x) in G; auto. clear G.
  (* what follows the subtree *)
  assert (A : forall d r, (d <= 0)%Z -> (let '(tr', (at', d')) := match later with [] => ([], (named t (r_id x), d - 1)%Z) | _ => tour_row (named t) Next d later end in deeper_visits (tr' ++ onward (named t) at' d' above)) = r -> r = []).
  { intros d r Hd E. subst r. destruct later as [|y s]; [apply onward_low; lia|]. destruct (row_first T (named t) y s d Next) as (r & Er). destruct (tour_row (named t) Next d (y :: s)) as [tr' [at' d']]. simpl in Er. subst tr'.
    simpl. destruct (Z.ltb_spec 0 d); [lia|auto]. }
  unfold tour_at. rewrite tour_row_cons, tour_from_eq. assert (Ex : preorder x = x :: preorder_list (r_kids x)) by (destruct x; auto). rewrite Ex.
  destruct (r_kids x) as [|k ks] eqn:Ek.
  - rewrite opt_eqb_refl. specialize (A 0%Z _ ltac:(lia) eq_refl). destruct later as [|y s].
    + simpl in A. simpl. rewrite A. auto.
    + destruct (tour_row (named t) Next 0 (y :: s)) as [tr' [at' d']]. simpl. rewrite A. auto.
  - assert (P : all_proper (named t) (Some (r_id x)) (k :: ks)).
    { assert (G : forall m (l : list (rose T)) up, size_l l <= m -> (forall x, In x l -> named t (r_id x) = up) -> (forall y x, In y (preorder_list l) -> In x (r_kids y) -> named t (r_id x) = Some (r_id y)) -> all_proper (named t) up l).
      { clear. induction m as [|m IH]; intros [|[i k d sp kids] l] up Hn Hu Hk; try (constructor; fail); rewrite size_l_cons, size_eq in Hn; cbn [r_kids] in Hn; [lia|]. constructor.
        - apply (Hu (Nd i k d sp kids)). simpl; auto.
        - apply IH; [lia| |].
          + intros x Hx. apply (Hk (Nd i k d sp kids)); auto. apply in_pre_cons. auto.
          + intros y x Hy. apply Hk. apply in_pre_cons. auto.
        - apply IH; [lia| |].
          + intros x Hx. apply Hu. simpl; auto.
          + intros y x Hy. apply Hk. apply in_pre_cons. auto. }
      apply (G (size_l (k :: ks))); auto.
      - intros z Hz. apply Hp; [rewrite Ex; simpl; auto|rewrite Ek; auto].
      - intros y z Hy Hz. apply (Hp y z); auto. rewrite Ex. right. exact Hy. }
    rewrite (tour_proper _ _ _ P); try discriminate. change (0 + 1 - 1)%Z with 0%Z. change (0 + 1)%Z with 1%Z. rewrite opt_eqb_refl. rewrite opt_eqb_refl.
    set (tr := trace 1 Down k ++ trace_list 1 ks).
    assert (Pos : Forall (fun v => 0 < fst (fst v))%Z tr).
    { apply Forall_forall. intros v Hv. unfold tr in Hv. apply in_app_iff in Hv as [Hv|Hv]; [apply trace_range in Hv|apply trace_list_range in Hv]; lia. }
    assert (Nd : map snd (filter downwards tr) = preorder_list (k :: ks)).
    { rewrite downwards_entering. unfold tr. rewrite filter_app, map_app, trace_list_nodes. simpl. f_equal. rewrite <- (preorder_depth_snd 1 k), <- (trace_preorder 1 Down k) by discriminate. rewrite map_map. auto. }
    specialize (A 0%Z _ ltac:(lia) eq_refl).
    assert (E : forall rest, confined ((0%Z, Next, x) :: (tr ++ [(0%Z, Up, x)]) ++ rest) = (0%Z, Next, x) :: tr).
    { intros rest. cbn [confined]. f_equal. rewrite <- app_assoc. apply deeper_app; auto. }
    destruct later as [|y s].
    + rewrite <- app_comm_cons, E. simpl. rewrite Nd. auto.
    + destruct (tour_row (named t) Next 0 (y :: s)) as [tr' [at' d']]. rewrite <- !app_comm_cons, <- app_assoc, E. simpl. rewrite Nd. auto.
Qed.
Print Assumptions C70_inside.

(** Without that, [inside] can leave the node: here it visits the next sibling too. *)
Definition escape_ops : list (op nat) :=
  [OOpen 77; OCheckpoint; OToken 2 1; OCheckpoint; OToken 3 1; OCloseAt 0 10; OCloseAt 1 11; OToken 5 1; OClose; OToken 78 1].
Definition escape_doc : list (rose nat) :=
  [Nd 0 KLeaf 77 (Span 0 3) [Nd 3 KLeaf 10 (Span 0 2) [Nd 1 KLeaf 2 (Span 0 1) []; Nd 4 KLeaf 11 (Span 1 2) [Nd 2 KLeaf 3 (Span 1 2) []]; Nd 5 KLeaf 5 (Span 2 3) []]];
   Nd 6 KLeaf 78 (Span 3 4) []].
Lemma escape_reads : reads (tree_so_far flavor_default escape_ops) (tree_first (tree_so_far flavor_default escape_ops)) escape_doc.
Proof. apply (read_reads _ 20). vm_compute. reflexivity. Qed.
Definition the_node (i : nat) : rose nat := match find (fun x => Nat.eqb (r_id x) i) (preorder_list escape_doc) with Some x => x | None => Nd 99 KLeaf 0 (Span 0 0) [] end.
Lemma escape_located : located escape_doc [(the_node 0, [the_node 6])].
Proof. apply loc_root with (s1 := []). reflexivity. Qed.
Lemma escape_inner : located escape_doc [(the_node 5, []); (the_node 3, []); (the_node 0, [the_node 6])].
Proof. eapply loc_child with (s1 := [the_node 1; the_node 4]); [|reflexivity]. eapply loc_child with (s1 := []); [|reflexivity]. apply escape_located. Qed.
Theorem C70_inside_refuted : exists n, let t := tree_so_far flavor_default escape_ops in
  builds flavor_default escape_ops t /\ fits flavor_default t /\ reads t (tree_first t) escape_doc /\
  In (the_node 0) (preorder_list escape_doc) /\ tree_get t 0 = Some n /\
  exists items, enumerates (inside_next flavor_default (t_nodes t)) (node_walk flavor_default n) items /\
    map fst items = [0; 3; 1; 4; 2; 5; 6] /\ map r_id (preorder (the_node 0)) = [0; 3; 1; 4; 2; 5].
Proof.
  assert (Hf : fits flavor_default (tree_so_far flavor_default escape_ops)) by (vm_compute; reflexivity).
  assert (exists n, tree_get (tree_so_far flavor_default escape_ops) 0 = Some n) as (n & Hn) by (eexists; vm_compute; reflexivity).
  exists n. split; [vm_compute; reflexivity|]. split; [exact Hf|]. split; [apply escape_reads|]. split; [left; reflexivity|]. split; [exact Hn|].
  destruct (C70_walk nat flavor_default escape_ops escape_doc (the_node 0) [the_node 6] [] n ltac:(split; auto) Hf escape_reads escape_located Hn) as (_ & _ & _ & items & A & B).
  exists items. split; [exact A|]. split; [|reflexivity].
  apply (f_equal (map (fun v : nat * nat * span * bool => fst (fst (fst v))))) in B. rewrite !map_map in B. etransitivity; [exact B|]. vm_compute. reflexivity.
Qed.
Print Assumptions C70_inside_refuted.

(** ** siblings *)
Theorem C70_siblings : forall T F (ops : list (op T)) l x later above n, vec_flavor F -> let t := tree_so_far F ops in
  reads t (tree_first t) l -> located l ((x, later) :: above) -> tree_get t (r_id x) = Some n ->
  enumerates_nodes (total (siblings_next (t_nodes t))) (node_siblings n) (x :: later).
Proof.
  intros T F ops l x later above n HF t Hl Hc Hn. pose proof (history_sees T F ops l HF Hl) as Hs. pose proof (history_within T F ops l HF Hl) as Hw. fold t in Hs, Hw.
  destruct (located_facts (t_nodes t) l _ Hs Hw _ Hc _ _ _ eq_refl) as [Sx _].
  assert (G : forall o s, sees (look (t_nodes t)) o s -> enum_rel (total (siblings_next (t_nodes t))) (shows (t_nodes t)) (node_opt (t_nodes t) o) s).
  { induction 1 as [|i d sp f nx k kids rest E H1 IH1 H2 IH2].
    - apply enum_rel_nil. apply (enumerates_stuck _ (fun s => s = None)); auto. intros ? ->. exists None. split; auto.
    - destruct (sees_shows (t_nodes t) _ _ _ _ _ k _ E H1) as (lk & El & Ef & En & Hsh). simpl node_opt. unfold node_at. rewrite El.
      eapply enum_rel_cons; [reflexivity|exact Hsh|]. simpl. rewrite En. exact IH2. }
  specialize (G _ _ Sx). simpl node_opt in G. unfold tree_get in Hn. rewrite Hn in G. apply (shows_enumerates (t_nodes t)). exact G.
Qed.
Print Assumptions C70_siblings.

(** ** find_preceding *)
Lemma find_up_search T St (ns : list (links T)) (p : St -> node T -> St * bool) : forall chain n st fuel r,
  enumerates (total (ancestors_next ns)) (node_ancestors n) (n :: chain) -> find_up fuel ns p st n = Ok r -> r = search_up ns p st (n :: chain).
Proof.
  induction chain as [|m chain IH]; intros n st fuel r A E; (destruct fuel as [|fuel]; [discriminate|]); apply enumerates_cons in A as (s1 & E1 & A); unfold total, ancestors_next, node_ancestors in E1; injection E1 as <-; cbn [find_up] in E; cbn [search_up].
  - apply enumerates_nil in A as (s2 & E2 & _). unfold total, ancestors_next in E2. destruct (node_parent ns n); [discriminate|].
    destruct (node_prev ns n) as [m|]; [|congruence]. destruct (p st m) as [st1 [|]]; congruence.
  - pose proof A as A0. apply enumerates_cons in A as (s2 & E2 & A). unfold total, ancestors_next in E2. destruct (node_parent ns n) as [m'|]; [|discriminate]. injection E2 as _ ->.
    specialize (IH m). destruct (node_prev ns n) as [q|]; [|eapply IH; eauto]. destruct (p st q) as [st1 [|]]; [congruence|eapply IH; eauto].
Qed.
Lemma find_down_search T St (ns : list (links T)) (p : St -> node T -> St * bool) : forall fuel n st st' r, find_down fuel ns p st n = Ok (st', r) -> search_down ns p st n st' r.
Proof.
  induction fuel as [|fuel IH]; intros n st st' r E; [discriminate|]. cbn [find_down] in E. destruct (node_last ns n) as [m|] eqn:El.
  - destruct (p st m) as [st1 [|]] eqn:Ep; [eapply sd_go; eauto|]. injection E as <- <-. eapply sd_stop; eauto.
  - injection E as <- <-. apply sd_none; auto.
Qed.

(** [find_preceding(p)], whatever was called on the builder, for any predicate: it returns, and it is a search through what
    [ancestors()], [prev()] and [last()] answer. *)
Theorem C70_find : forall T St F (ops : list (op T)) i n (p : St -> node T -> St * bool) st, vec_flavor F -> let t := tree_so_far F ops in
  fits F t -> tree_get t i = Some n ->
  exists chain st2 o, enumerates (total (ancestors_next (t_nodes t))) (node_ancestors n) chain /\
    find_preceding_mut (t_nodes t) p st n = Ok (st2, o) /\
    let '(st1, r) := search_up (t_nodes t) p st chain in
    match r with
    | None => o = None /\ st2 = st1
    | Some m => exists y, o = Some y /\ search_down (t_nodes t) p st1 m st2 y
    end.
Proof.
  intros T St F ops i n p st HF t Hfit Hn. destruct (placed_reads _ _ (run_placed F HF ops)) as (l & Hl & Hp). specialize (Hp l Hl). change (reads t (tree_first t) l) in Hl.
  assert (Hi : In i (map r_id (preorder_list l))).
  { apply (Permutation_in i (Permutation_sym Hp)). apply in_seq. split; [lia|]. unfold tree_get, node_at in Hn. destruct (nth_error (t_nodes t) i) as [li|] eqn:E; [|discriminate]. apply nth_lt in E. exact E. }
  apply in_map_iff in Hi as (x & <- & Hx). destruct (ancestry_exists l x Hx) as (ch & Ha). destruct (chain_head T l x ch Ha) as (ch' & ->).
  destruct (C67_ancestors T F ops l x ch' n HF Hl Ha Hn) as (items & A & _). fold t in A.
  destruct (run_placed F HF ops) as [[(lo & hi & cap & stk & HB & _) _] _]. pose proof (bi_table _ _ _ _ _ HB) as HT. change (b_tree (w_builder (run_world F ops))) with t in HT.
  assert (exists li, nth_error (t_nodes t) (r_id x) = Some li /\ n = (r_id x, li)) as (li & Eli & ->) by (unfold tree_get, node_at in Hn; destruct (nth_error (t_nodes t) (r_id x)) as [li|]; [|discriminate]; injection Hn as <-; eauto).
  destruct (find_preceding_ends (t_nodes t) lo hi cap HT p st (r_id x) li Eli) as (st2 & o & E & _).
  eexists. exists st2, o. split; [exact A|]. split; [exact E|]. unfold find_preceding_mut in E.
  destruct (find_up (S (length (t_nodes t))) (t_nodes t) p st (r_id x, li)) as [[st1 r]| |] eqn:Eu; try discriminate.
  rewrite <- (find_up_search T St (t_nodes t) p items _ _ _ _ A Eu). destruct r as [m|].
  - destruct (find_down (S (length (t_nodes t))) (t_nodes t) p st1 m) as [[st3 y]| |] eqn:Ed; try discriminate. injection E as <- <-. exists y. split; auto. eapply find_down_search; eauto.
  - injection E as <- <-. auto.
Qed.
Print Assumptions C70_find.

(** ** skip_tokens *)
Lemma find_group S T (nxt other : S -> result (S * option (node T))) (d : bool) : forall fuel s s' o, 
  iter_find fuel nxt (fun n => has_children n) s = Ok (s', o) ->
  exists g, skipped o g /\ forall sched rest, drive (if d then nxt else other) (if d then other else nxt) sched s' = Ok rest ->
    drive (if d then nxt else other) (if d then other else nxt) (repeat d (length g) ++ sched) s = Ok (g ++ rest).
Proof.
  induction fuel as [|fuel IH]; intros s s' o E; [discriminate|]. cbn [iter_find] in E. destruct (nxt s) as [[s1 [a|]]| |] eqn:En; try discriminate.
  - destruct (has_children a) eqn:Eh.
    + injection E as <- <-. exists [Some a]. split; [exists []; repeat split; auto|]. intros sched rest Hr. cbn [length repeat app drive].
      destruct d; rewrite En, Hr; auto.
    + destruct (IH _ _ _ E) as (g & (pre & -> & Hp & Ho) & G). exists (Some a :: map Some pre ++ [o]). split; [exists (a :: pre); repeat split; auto|].
      intros sched rest Hr. specialize (G sched rest Hr). cbn [length repeat app drive]. destruct d; rewrite En, G; auto.
  - injection E as <- <-. exists [None]. split; [exists []; repeat split; auto|]. intros sched rest Hr. cbn [length repeat app drive]. destruct d; rewrite En, Hr; auto.
Qed.
Lemma skip_groups S T (nxt back : S -> result (S * option (node T))) fuel sched : forall s items,
  drive (skip_next fuel nxt) (skip_next fuel back) sched s = Ok items ->
  exists groups, Forall2 skipped items groups /\ drive nxt back (calls_below sched groups) s = Ok (concat groups).
Proof.
  induction sched as [|d sched IH]; intros s items E.
  - injection E as <-. exists []. split; auto.
  - cbn [drive] in E. destruct ((if d then skip_next fuel nxt else skip_next fuel back) s) as [[s1 o]| |] eqn:E1; try discriminate.
    destruct (drive (skip_next fuel nxt) (skip_next fuel back) sched s1) as [v| |] eqn:E2; try discriminate. injection E as <-.
    destruct (IH _ _ E2) as (groups & G1 & G2).
    assert (E3 : iter_find fuel (if d then nxt else back) (fun n => has_children n) s = Ok (s1, o)) by (destruct d; exact E1).
    destruct (find_group S T _ (if d then back else nxt) d _ _ _ _ E3) as (g & Hg & D). exists (g :: groups). split; [constructor; auto|]. cbn [calls_below concat].
    specialize (D (calls_below sched groups) (concat groups)). destruct d; apply D; exact G2.
Qed.
Lemma find_keeps S A (P : S -> Prop) (nxt : S -> result (S * option A)) q : (forall s s' o, P s -> nxt s = Ok (s', o) -> P s') ->
  forall fuel s s' o, P s -> iter_find fuel nxt q s = Ok (s', o) -> P s'.
Proof.
  intros H. induction fuel as [|fuel IH]; intros s s' o Hs E; [discriminate|]. cbn [iter_find] in E. destruct (nxt s) as [[s1 [a|]]| |] eqn:En; try discriminate.
  - destruct (q a); [injection E as <- <-|]; eauto.
  - injection E as <- <-. eauto.
Qed.
Lemma find_returns S A (nxt : S -> result (S * option A)) q : forall items s fuel, enumerates nxt s items -> length items < fuel -> exists r, iter_find fuel nxt q s = Ok r.
Proof.
  induction items as [|a items IH]; intros s fuel A0 Hf; (destruct fuel as [|fuel]; [lia|]); cbn [iter_find].
  - apply enumerates_nil in A0 as (s1 & -> & _). eauto.
  - apply enumerates_cons in A0 as (s1 & -> & A1). destruct (q a); eauto. simpl in Hf. apply (IH s1 fuel A1). lia.
Qed.

(** The children of a node or of the tree with [skip_tokens()], from both ends in any order: it always returns, and it asks [children()] (C68_both) until a node with children comes. *)
Theorem C70_skip : forall T F (ops : list (op T)) it p sched fuel, vec_flavor F -> let t := tree_so_far F ops in
  its_children t p = Some it -> tree_len t < fuel ->
  exists items groups,
    drive (skip_next fuel (total (children_next (t_nodes t)))) (skip_next fuel (total (children_next_back (t_nodes t)))) sched it = Ok items /\
    drive (total (children_next (t_nodes t))) (total (children_next_back (t_nodes t))) (calls_below sched groups) it = Ok (concat groups) /\
    Forall2 skipped items groups.
Proof.
  intros T F ops it p sched fuel HF t Hit Hf. destruct (run_placed F HF ops) as [[(lo & hi & cap & stk & HB & _) _] _]. pose proof (bi_table _ _ _ _ _ HB) as HT. change (b_tree (w_builder (run_world F ops))) with t in HT.
  set (P := fun c => forall i, ch_last c = Some i -> i < tree_len t).
  assert (P0 : P it).
  { unfold P. destruct p as [x|]; simpl in Hit.
    - unfold tree_get, node_at in Hit. destruct (nth_error (t_nodes t) (r_id x)) as [lx|] eqn:Ex; [|discriminate]. injection Hit as <-. intros i Hi. apply (li_last _ _ _ _ _ _ (HT _ _ Ex) i Hi).
    - injection Hit as <-. intros i Hi. apply (bi_last _ _ _ _ _ HB). exact Hi. }
  assert (Pf : forall s s' o, P s -> total (children_next (t_nodes t)) s = Ok (s', o) -> P s').
  { intros [f z] s' o Hs E. unfold total, children_next in E. simpl in E. destruct f as [f|]; [|injection E as <- <-; auto].
    destruct (nth_error (t_nodes t) f); [|injection E as <- <-; exact Hs]. destruct z as [z|]; [|injection E as <- <-; exact Hs]. injection E as <- <-. destruct (Nat.eqb f z); exact Hs. }
  assert (Pb : forall s s' o, P s -> total (children_next_back (t_nodes t)) s = Ok (s', o) -> P s').
  { intros [f z] s' o Hs E. unfold total, children_next_back in E. simpl in E. destruct z as [z|]; [|injection E as <- <-; auto].
    destruct (nth_error (t_nodes t) z) as [lz|] eqn:Ez; [|injection E as <- <-; intros i Hi; discriminate]. destruct f as [f|]; [|injection E as <- <-; intros i Hi; discriminate]. injection E as <- <-.
    destruct (Nat.eqb z f); intros i Hi; [discriminate|]. simpl in Hi. destruct (li_prev _ _ _ _ _ _ (HT _ _ Ez) i Hi) as (_ & _ & _ & li & E & _). eapply nth_lt; eauto. }
  assert (D : forall sched it, P it -> exists items, drive (skip_next fuel (total (children_next (t_nodes t)))) (skip_next fuel (total (children_next_back (t_nodes t)))) sched it = Ok items).
  { clear it Hit P0 sched. induction sched as [|d sched IH]; intros it P0; [eexists; reflexivity|]. cbn [drive].
    assert (exists s' o, (if d then skip_next fuel (total (children_next (t_nodes t))) else skip_next fuel (total (children_next_back (t_nodes t)))) it = Ok (s', o) /\ P s') as (s' & o & -> & P1).
    { destruct d; unfold skip_next.
      - destruct (children_end (t_nodes t) lo hi cap HT it) as (items & A & B). destruct (find_returns _ _ _ (fun n => has_children n) _ _ fuel A) as ([s' o] & E); [unfold tree_len in Hf; lia|].
        exists s', o. split; [exact E|]. exact (find_keeps _ _ P _ _ Pf _ _ _ _ P0 E).
      - destruct (children_back_end (t_nodes t) lo hi cap HT it P0) as (items & A & B). destruct (find_returns _ _ _ (fun n => has_children n) _ _ fuel A) as ([s' o] & E); [unfold tree_len in Hf; lia|].
        exists s', o. split; [exact E|]. exact (find_keeps _ _ P _ _ Pb _ _ _ _ P0 E). }
    destruct (IH s' P1) as (items & ->). eauto. }
  destruct (D sched it P0) as (items & E). destruct (skip_groups _ _ _ _ _ _ _ _ E) as (groups & G1 & G2). exists items, groups. auto.
Qed.
Print Assumptions C70_skip.

Example C70_inhabited : let t := tree_so_far flavor_default escape_ops in
  vec_flavor flavor_default /\ fits flavor_default t /\ reads t (tree_first t) escape_doc /\
  located escape_doc [(the_node 5, []); (the_node 3, []); (the_node 0, [the_node 6])] /\
  map (named t) [5; 3; 0; 6] = [Some 0; Some 0; None; None] /\
  map (fun v => (fst v, r_id (snd v))) (tour_at (named t) (the_node 5) [] [(the_node 3, []); (the_node 0, [the_node 6])]) =
    [(0%Z, Next, 5); ((-1)%Z, Up, 0); ((-1)%Z, Next, 6)] /\
  map (fun v => (fst v, r_id (snd v))) (onward (named t) (Some 4) 0%Z [(the_node 4, [the_node 5]); (the_node 3, []); (the_node 0, [the_node 6])]) =
    [(0%Z, Up, 4); (0%Z, Next, 5); ((-1)%Z, Up, 0); ((-1)%Z, Next, 6)] /\
  (forall y z, In y (preorder (the_node 4)) -> In z (r_kids y) -> named t (r_id z) = Some (r_id y)) /\
  (exists it, its_children t (Some (the_node 3)) = Some it) /\
  (exists n, tree_get t 5 = Some n /\ find_preceding (t_nodes t) (fun m => Nat.eqb (node_value m) 2) n = Ok None).
Proof.
  split; [split; auto|]. split; [vm_compute; reflexivity|]. split; [apply escape_reads|]. split; [apply escape_inner|]. split; [vm_compute; reflexivity|].
  split; [vm_compute; reflexivity|]. split; [vm_compute; reflexivity|]. split.
  { intros y z Hy Hz. vm_compute in Hy. destruct Hy as [<-|[<-|[]]]; [destruct Hz as [<-|[]]; vm_compute; reflexivity|destruct Hz]. }
  split; [eexists; vm_compute; reflexivity|]. eexists. split; vm_compute; reflexivity.
Qed.
