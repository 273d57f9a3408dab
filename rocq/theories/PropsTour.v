(** Property theorems: parents and walks of every tree from a builder, also with misused checkpoints (C67). *)
From Coq Require Import Lia Permutation.
From Verif Require Import Base Pointer Index Tree Builder Hist Node Iter Edit Spec SpecReads SpecShape SpecTour Rep Refine TreeRep Enum Walk WalkTree AllHist StepFacts AllPlaced Modify PropsTree PropsSafe
  AllReads Nav Demo PropsMisuse Settle Shape Tour.
Open Scope nat_scope.

Lemma named_par T F (ops : list (op T)) i : vec_flavor F -> let t := tree_so_far F ops in named t i = par (t_nodes t) i.
Proof.
  intros HF t. unfold named, par, tree_get, node_at. destruct (nth_error (t_nodes t) i) as [l|] eqn:El; auto. simpl. unfold node_parent. simpl.
  destruct (l_parent l) as [p|] eqn:Ep; auto. simpl. destruct (run_placed F HF ops) as [[(lo & hi & cap & stk & HB & _) _] _].
  destruct (li_parent _ _ _ _ _ _ (bi_table _ _ _ _ _ HB _ _ El) p Ep) as (Hp & _). destruct (nth_in _ _ Hp) as [lp E]. unfold node_at.
  change (nth_error (t_nodes t) p = Some lp) in E. rewrite E. auto.
Qed.
Lemma tour_ext T (p p' : nat -> option nat) : (forall i, p i = p' i) -> forall n (l : list (rose T)) e d, size_l l <= n -> tour_row p e d l = tour_row p' e d l.
Proof.
  intros H. induction n as [|n IH]; intros [|x l] e d Hn; auto; rewrite size_l_cons, size_eq in Hn; [lia|].
  rewrite !tour_row_cons, !tour_from_eq. rewrite (IH (r_kids x)) by lia. rewrite H.
  destruct (match r_kids x with [] => _ | _ => _ end) as [tr [at_ d']]. destruct (opt_nat_eqb at_ (Some (r_id x))); auto. rewrite (IH l) by lia. auto.
Qed.

(** ** Parents *)

Lemma within_ancestry T p (l : list (rose T)) : within p [] l -> forall x chain, ancestry l x chain ->
  (exists A rest, within p A (x :: rest) /\ incl A (map r_id (tl chain)) ) .
Proof.
  intros H x chain Hx.
  assert (G : forall A (l : list (rose T)), within p A l -> forall x, In x l -> exists rest, within p A (x :: rest)).
  { clear. induction 1; intros x Hx; [destruct Hx|]. destruct Hx as [<-|Hx]; [exists rest; constructor; auto|eauto]. }
  induction Hx as [x Hx|x y chain Hy IH Hx].
  - destruct (G _ _ H _ Hx) as (rest & Hr). exists [], rest. split; auto. intros q [].
  - destruct IH as (A & rest & HA & Hi). inversion HA as [|A' i k d sp kids rest' P1 P2 P3]; subst. simpl in Hx. destruct (G _ _ P2 _ Hx) as (r & Hr).
    exists (i :: A), r. split; auto. simpl. intros q [<-|Hq].
    + inversion Hy; subst; simpl; auto.
    + apply Hi in Hq. inversion Hy; subst; simpl in *; auto.
Qed.

(** The parent that a node names is one of the nodes it is read inside, or it names none. *)
Theorem C67_parent : forall T F (ops : list (op T)) l x chain n, vec_flavor F -> let t := tree_so_far F ops in
  reads t (tree_first t) l -> ancestry l x (x :: chain) -> tree_get t (r_id x) = Some n ->
  node_parent (t_nodes t) n = None \/ exists y, In y chain /\ answers (node_parent (t_nodes t) n) (Some y).
Proof.
  intros T F ops l x chain n HF t Hl Hx Hn.
  destruct (within_ancestry _ _ _ (history_within T F ops l HF Hl) x _ Hx) as (A & rest & HA & Hi). simpl in Hi.
  inversion HA as [|A' i k d sp kids rest' P1 P2 P3]; subst. simpl in Hn. pose proof (named_par T F ops i HF) as NP. fold t in NP, P1. cbv zeta in NP. rewrite <- NP in P1. unfold named in P1. rewrite Hn in P1.
  destruct P1 as [P1|(q & P1 & Hq)]; [left; destruct (node_parent (t_nodes t) n); [discriminate|auto]|]. right.
  apply Hi in Hq. apply in_map_iff in Hq as (y & <- & Hy). exists y. split; auto.
  destruct (node_parent (t_nodes t) n) as [m|] eqn:Em; [|discriminate]. simpl in P1. injection P1 as P1.
  assert (Hyl : In y (preorder_list l)).
  { clear -Hx Hy. assert (G : forall x ch, ancestry l x ch -> forall y, In y ch -> exists ch', ancestry l y ch').
    { clear. intros x ch H. induction H as [x H|x y ch H IH Hx]; intros z [<-|Hz]; [|destruct Hz| |auto]; eexists; [apply anc_root; auto|eapply anc_child; eauto]. }
    destruct (G _ _ Hx y (or_intror Hy)) as (ch & Hc). eapply ancestry_in; eauto. }
  destruct (reads_in _ _ _ _ Hl (real_opt _ _ _) y Hyl) as (m' & k' & kids' & Em' & -> & Hc & _). simpl in P1.
  unfold node_parent in Em. assert (Er : real t (Some m)) by (rewrite <- Em; apply real_opt). specialize (Er m eq_refl).
  assert (m = m') by congruence. subst m'. unfold answers. simpl. f_equal.
  unfold view, rview. simpl. unfold has_kids. simpl. rewrite Hc. auto.
Qed.
Print Assumptions C67_parent.

(** The first of a row names the node whose children they are. *)
Theorem C67_first : forall T F (ops : list (op T)) l p x s n, vec_flavor F -> let t := tree_so_far F ops in
  reads t (tree_first t) l -> In (p, x :: s) (sibling_lists l) -> tree_get t (r_id x) = Some n ->
  option_map fst (node_parent (t_nodes t) n) = option_map r_id p.
Proof.
  intros T F ops l p x s n HF t Hl Hs Hn. pose proof (history_sees T F ops l HF Hl) as S0. fold t in S0.
  assert (Hf : level_first t (option_map r_id p) = Some (r_id x)).
  { destruct Hs as [E|Hs].
    - injection E as <- E. rewrite E in S0. simpl. inversion S0. auto.
    - apply in_map_iff in Hs as (q & E & Hq). injection E as <- E.
      assert (G : forall o m, sees (look (t_nodes t)) o m -> forall q, In q (preorder_list m) -> exists f nx, look (t_nodes t) (r_id q) = Some (r_data q, r_span q, f, nx) /\ sees (look (t_nodes t)) f (r_kids q)).
      { clear. induction 1 as [|i d sp f nx k kids rest E H1 IH1 H2 IH2]; intros q Hq; [destruct Hq|]. apply in_pre_cons in Hq as [->|[Hq|Hq]]; eauto. }
      destruct (G _ _ S0 q Hq) as (f & nx & A & B). rewrite E in B. unfold level_first. simpl. unfold look in A. destruct (nth_error (t_nodes t) (r_id q)) as [lq|]; [|discriminate]. simpl in A. injection A as _ _ <- _.
      inversion B. auto. }
  destruct (run_placed F HF ops) as [_ HP]. destruct (pl_first _ HP _ _ Hf) as (lx & Ex & _ & Px).
  assert (Ep : named t (r_id x) = option_map r_id p) by (unfold t; rewrite named_par by auto; unfold par; change (nth_error (t_nodes (tree_so_far F ops)) (r_id x) = Some lx) in Ex; rewrite Ex; auto).
  unfold named in Ep. rewrite Hn in Ep. exact Ep.
Qed.
Print Assumptions C67_first.

(** ** Walks *)

Lemma size_len T F (ops : list (op T)) l : vec_flavor F -> let t := tree_so_far F ops in reads t (tree_first t) l -> size_l l = tree_len t.
Proof.
  intros HF t Hl. destruct (placed_reads _ _ (run_placed F HF ops)) as (_ & _ & Hp). specialize (Hp l Hl).
  apply Permutation_length in Hp. rewrite map_length, seq_length in Hp. exact Hp.
Qed.

Lemma history_run T F (ops : list (op T)) l : vec_flavor F -> let t := tree_so_far F ops in fits F t -> reads t (tree_first t) l ->
  exists d, wrun F (t_nodes t) (tree_walk t) (tour (named t) l) (WalkIt None d).
Proof.
  intros HF t Hfit Hl. pose proof (history_sees T F ops l HF Hl) as Hs. pose proof (history_within T F ops l HF Hl) as Hw.
  pose proof (size_len T F ops l HF Hl) as HL. fold t in Hs, Hw, HL. unfold tour, tree_walk.
  rewrite (tour_ext _ (named t) (par (t_nodes t))) with (n := size_l l); auto. 2:{ intros i. apply named_par; auto. }
  destruct l as [|x l].
  - inversion Hs. exists 0%Z. simpl. constructor.
  - unfold fits in Hfit. fold (tree_len t) in Hfit.
    assert (Et : t_first t = Some (r_id x)) by (inversion Hs; auto). rewrite Et.
    pose proof (wrun_row F (t_nodes t) _ _ Hs (r_id x) Next 0%Z Et ltac:(discriminate) ltac:(lia) ltac:(lia)) as G.
    pose proof (tour_ends (t_nodes t) [] _ Hw Next 0%Z) as G2. destruct (tour_row (par (t_nodes t)) Next 0 (x :: l)) as [tr [at_ d']].
    destruct G2 as [->|(q & _ & [])]. destruct G as [G _]. exists d'. exact G.
Qed.
Lemma row_ups T p n : forall (l : list (rose T)) e d, size_l l <= n -> e <> Up -> ups (fst (tour_row p e d l)) <= size_l l.
Proof.
  induction n as [|n IH]; intros [|x l] e d Hn He; try (apply le_n); rewrite size_l_cons, size_eq in Hn |- *; [lia|].
  assert (He' : entering (d, e, x) = true) by (destruct e; auto; congruence).
  rewrite tour_row_cons, tour_from_eq. pose proof (fun d => IH l Next d ltac:(lia) ltac:(discriminate)) as R.
  destruct (r_kids x) as [|c kids] eqn:Ek.
  - rewrite opt_eqb_refl. destruct l as [|y l].
    + unfold ups. simpl. rewrite He'. simpl. lia.
    + specialize (R d). destruct (tour_row p Next d (y :: l)) as [tr r]. cbn [fst] in *. rewrite ups_app. unfold ups at 1. simpl. rewrite He'. simpl. lia.
  - pose proof (IH (c :: kids) Down (d + 1)%Z ltac:(lia) ltac:(discriminate)) as K. destruct (tour_row p Down (d + 1) (c :: kids)) as [tr [at_ d']]. cbn [fst] in K.
    assert (C : forall tr', ups ((d, e, x) :: tr') = ups tr') by (intros; unfold ups; simpl; rewrite He'; auto).
    destruct (opt_nat_eqb at_ (Some (r_id x))) eqn:Eat; rewrite Eat.
    + destruct l as [|y l].
      * cbn [fst]. rewrite C, ups_app. unfold ups at 2. simpl. lia.
      * specialize (R d'). destruct (tour_row p Next d' (y :: l)) as [tr' r]. cbn [fst] in *. rewrite ups_app, C, ups_app. unfold ups at 2. simpl. lia.
    + cbn [fst]. rewrite C. lia.
Qed.

Lemma shows_view T (ns : list (links T)) items xs : Forall2 (shows ns) items xs -> map view items = map rview xs.
Proof. induction 1 as [|a b c d [_ H] _ IH]; simpl; congruence. Qed.
Lemma downwards_entering T (tr : visits (T := T)) : filter downwards tr = filter entering tr.
Proof. induction tr as [|[[d e] x] tr IH]; auto. Qed.

(** [walk_events], [with_depths] and [walk] take the tour: down and along the rows that [first] and [next] show, up as
    the parents say. *)
Theorem C67_walk : forall T F (ops : list (op T)) l, vec_flavor F -> let t := tree_so_far F ops in
  fits F t -> reads t (tree_first t) l ->
  (exists items, enumerates (total (walk_events_next F (t_nodes t))) (tree_walk t) items /\
     map (fun i => (fst i, view (snd i))) items = map (fun v => (snd (fst v), rview (snd v))) (tour (named t) l)) /\
  (exists items, enumerates (walk_depths_next F (t_nodes t)) (tree_walk t) items /\
     map (fun i => (fst i, view (snd i))) items = map (fun v => (fst (fst v), rview (snd v))) (filter downwards (tour (named t) l))) /\
  (exists items, enumerates (walk_next F (t_nodes t)) (tree_walk t) items /\
     map view items = map (fun v => rview (snd v)) (filter downwards (tour (named t) l))).
Proof.
  intros T F ops l HF t Hfit Hl. destruct (history_run T F ops l HF Hfit Hl) as (d & H). fold t in H.
  assert (Hu : ups (tour (named t) l) < loop_fuel (t_nodes t)).
  { unfold loop_fuel. pose proof (row_ups T (named t) (size_l l) l Next 0%Z (le_n _) ltac:(discriminate)) as G.
    pose proof (size_len T F ops l HF Hl) as HL. unfold tree_len in HL. fold t in HL. unfold tour. lia. }
  rewrite downwards_entering. split; [|split].
  - destruct (wrun_events _ _ _ _ _ H) as (items & A & B). exists items. split; auto.
    clear -B. induction B as [|a b c e [E [_ V]] _ IH]; simpl; auto. rewrite IH, E, V. auto.
  - destruct (wrun_depths _ _ _ _ _ _ H Hu) as (items & A & B). exists items. split; auto.
    clear -B. induction B as [|a b c e [E [_ V]] _ IH]; simpl; auto. rewrite IH, E, V. auto.
  - destruct (wrun_walk _ _ _ _ _ _ H Hu) as (items & A & B). exists items. split; auto. rewrite (shows_view _ _ _ _ B), map_map. auto.
Qed.
Print Assumptions C67_walk.

(** So a walk never goes astray: it visits nodes in document order, each at most once, some possibly left out. *)
Theorem C67_order : forall T F (ops : list (op T)) l, vec_flavor F -> let t := tree_so_far F ops in
  fits F t -> reads t (tree_first t) l ->
  exists items, enumerates (walk_next F (t_nodes t)) (tree_walk t) items /\
    subsequence (map view items) (map rview (preorder_list l)) /\ NoDup (map fst items).
Proof.
  intros T F ops l HF t Hfit Hl. destruct (C67_walk T F ops l HF Hfit Hl) as (_ & _ & items & A & B). exists items. split; [exact A|].
  assert (S : subsequence (map view items) (map rview (preorder_list l))).
  { fold t in B. rewrite B. rewrite <- map_map. pose proof (tour_order (named t) l Next 0%Z ltac:(discriminate)) as G.
    unfold tour. clear -G. induction G; simpl; constructor; auto. }
  split; auto.
  destruct (placed_reads _ _ (run_placed F HF ops)) as (_ & _ & Hp). specialize (Hp l Hl).
  assert (N : NoDup (map r_id (preorder_list l))) by (eapply Permutation_NoDup; [apply Permutation_sym; exact Hp|apply seq_NoDup]).
  assert (S' : subsequence (map fst items) (map r_id (preorder_list l))).
  { clear -S. assert (G : forall a b, subsequence a b -> subsequence (map (fun v : nat * T * span * bool => fst (fst (fst v))) a) (map (fun v => fst (fst (fst v))) b)) by (induction 1; simpl; constructor; auto).
    apply G in S. rewrite !map_map in S. exact S. }
  clear -N S'. induction S'; inversion N; subst; auto; constructor; auto. intros Hin. apply H1. clear -Hin S'.
  induction S'; simpl in *; auto. destruct Hin; auto.
Qed.
Print Assumptions C67_order.

Lemma complete_tour T (t : tree T) (l : list (rose T)) :
  (forall p s x, In (p, s) (sibling_lists l) -> In x s -> named t (r_id x) = option_map r_id p) ->
  map (fun v => (fst (fst v), snd v)) (filter downwards (tour (named t) l)) = flat_map (preorder_depth 0) l /\
  map (fun v => (snd (fst v), snd v)) (tour (named t) l) = events_list l.
Proof.
  intros H.
  assert (P : all_proper (named t) None l).
  { assert (G : forall n (l : list (rose T)) up, size_l l <= n -> (forall x, In x l -> named t (r_id x) = up) -> (forall y x, In y (preorder_list l) -> In x (r_kids y) -> named t (r_id x) = Some (r_id y)) -> all_proper (named t) up l).
    { clear. induction n as [|n IH]; intros [|[i k d sp kids] l] up Hn Hu Hk; try (constructor; fail); rewrite size_l_cons, size_eq in Hn; cbn [r_kids] in Hn; [lia|]. constructor.
      - apply (Hu (Nd i k d sp kids)). simpl; auto.
      - apply IH; [lia| |].
        + intros x Hx. apply (Hk (Nd i k d sp kids)); auto. apply in_pre_cons. auto.
        + intros y x Hy. apply Hk. apply in_pre_cons. auto.
      - apply IH; [lia| |].
        + intros x Hx. apply Hu. simpl; auto.
        + intros y x Hy. apply Hk. apply in_pre_cons. auto. }
    apply (G (size_l l)); auto.
    - intros x Hx. apply (H None l x); auto. left. auto.
    - intros y x Hy Hx. apply (H (Some y) (r_kids y) x); auto. apply kids_sibling_list. auto. }
  assert (E : tour (named t) l = trace_list 0 l).
  { unfold tour. destruct l as [|x r]; auto. rewrite (tour_proper _ _ _ P); try discriminate. auto. }
  rewrite E. split.
  - rewrite downwards_entering. apply trace_list_preorder.
  - apply trace_list_events.
Qed.
(** When every node names the node whose child it is, nothing is left out and the depths are right. *)
Theorem C67_complete : forall T F (ops : list (op T)) (l : list (rose T)), vec_flavor F -> let t := tree_so_far F ops in
  (forall p s x, In (p, s) (sibling_lists l) -> In x s -> named t (r_id x) = option_map r_id p) ->
  map (fun v => (fst (fst v), snd v)) (filter downwards (tour (named t) l)) = flat_map (preorder_depth 0) l /\
  map (fun v => (snd (fst v), snd v)) (tour (named t) l) = events_list l.
Proof. intros T F ops l _ t. apply complete_tour. Qed.
Print Assumptions C67_complete.

(** ** Ancestors *)

Lemma chain_split T (l : list (rose T)) x ch : ancestry l x ch -> forall y, In y ch -> exists pre ch', ch = pre ++ y :: ch' /\ ancestry l y (y :: ch').
Proof.
  induction 1 as [x H|x y ch H IH Hx]; intros z [<-|Hz].
  - exists [], []. split; auto. apply anc_root; auto.
  - destruct Hz.
  - exists [], ch. split; auto. eapply anc_child; eauto.
  - destruct (IH z Hz) as (pre & ch' & -> & Hc). exists (x :: pre), ch'. auto.
Qed.
Lemma chain_head T (l : list (rose T)) x ch : ancestry l x ch -> exists ch', ch = x :: ch'.
Proof. destruct 1; eauto. Qed.
Lemma subsequence_skips {A} (p : list A) : forall a b, subsequence a b -> subsequence a (p ++ b).
Proof. induction p; simpl; auto. constructor. auto. Qed.

(** [ancestors] of a node gives the node itself and then nodes it is read inside, from the inside out, some possibly left out. *)
Theorem C67_ancestors : forall T F (ops : list (op T)) l x chain n, vec_flavor F -> let t := tree_so_far F ops in
  reads t (tree_first t) l -> ancestry l x (x :: chain) -> tree_get t (r_id x) = Some n ->
  exists items, enumerates (total (ancestors_next (t_nodes t))) (node_ancestors n) (n :: items) /\
    subsequence (map view items) (map rview chain).
Proof.
  intros T F ops l x chain n HF t Hl. remember (length chain) as k eqn:Ek. assert (Hk : length chain <= k) by lia. clear Ek. revert x chain n Hk.
  induction k as [k IH] using lt_wf_ind. intros x chain n Hk Hx Hn.
  pose proof (C67_parent T F ops l x chain n HF Hl Hx Hn) as P. fold t in P. cbv zeta in P.
  destruct P as [P|(y & Hy & P)].
  - exists []. split; [|apply subsequence_none]. apply enumerates_cons. eexists. split; [unfold total, node_ancestors, ancestors_next; rewrite P; reflexivity|].
    apply (enumerates_stuck _ (fun s => s = None)); auto. intros ? ->. eexists. split; reflexivity.
  - destruct (node_parent (t_nodes t) n) as [m|] eqn:Em; [|discriminate].
    assert (exists pre ch', chain = pre ++ y :: ch' /\ ancestry l y (y :: ch')) as (pre & ch' & E & Hc).
    { inversion Hx as [x' Hr E1 E2|x' y' chain' Hy' Hr E1 E2]; subst; [destruct Hy|]. eapply chain_split; eauto. }
    assert (Er : real t (Some m)) by (rewrite <- Em; unfold node_parent; apply real_opt). specialize (Er m eq_refl).
    unfold answers in P. simpl in P. injection P as P1 P2 P3 P4.
    subst chain. rewrite app_length in Hk. simpl in Hk.
    destruct (IH (length ch') ltac:(lia) y ch' m (le_n _) Hc) as (items & A & B).
    { rewrite <- P1. exact Er. }
    exists (m :: items). split.
    + apply enumerates_cons. eexists. split; [unfold total, node_ancestors, ancestors_next; rewrite Em; reflexivity|]. exact A.
    + rewrite map_app. apply subsequence_skips. simpl. unfold view at 1, rview at 1. rewrite P1, P2, P3, P4. constructor. auto.
Qed.
Print Assumptions C67_ancestors.

(** ** A history with misused checkpoints *)
Example C67_inhabited : let t := tree_so_far flavor_default missed_ops in
  vec_flavor flavor_default /\ fits flavor_default t /\ reads t (tree_first t) missed_doc /\
  map (named t) (seq 0 6) = [Some 2; Some 4; None; None; Some 2; None] /\
  map (fun v => (fst v, r_id (snd v))) (tour (named t) missed_doc) =
    [(0%Z, Next, 2); (1%Z, Down, 0); (1%Z, Next, 4); (2%Z, Down, 1); (1%Z, Up, 4); (1%Z, Next, 5)] /\
  (exists x y z, ancestry missed_doc x [x; y] /\ r_id x = 5 /\ r_id y = 2 /\ ancestry missed_doc z [z] /\ r_id z = 3).
Proof.
  split; [split; auto|]. split; [vm_compute; reflexivity|]. split; [apply (read_reads _ 10); vm_compute; reflexivity|].
  split; [vm_compute; reflexivity|]. split; [vm_compute; reflexivity|].
  exists (Nd 5 KLeaf 5 (Span 3 4) []), (nth 0 missed_doc (Nd 0 KLeaf 0 (Span 0 0) [])), (Nd 3 KLeaf 4 (Span 2 3) []).
  split; [eapply anc_child; [apply anc_root|]; simpl; auto|]. repeat split; auto. apply anc_root. simpl. auto.
Qed.
Example C67_complete_inhabited : exists (ops : list (op nat)) l, let t := tree_so_far flavor_default ops in
  reads t (tree_first t) l /\ map r_id (preorder_list l) = [2; 0; 1; 3] /\
  (forall p s x, In (p, s) (sibling_lists l) -> In x s -> named t (r_id x) = option_map r_id p).
Proof.
  exists [OCheckpoint; OToken 2 1; OToken 3 1; OCloseAt 0 10; OToken 4 1].
  exists [Nd 2 KLeaf 10 (Span 0 2) [Nd 0 KLeaf 2 (Span 0 1) []; Nd 1 KLeaf 3 (Span 1 2) []]; Nd 3 KLeaf 4 (Span 2 3) []].
  split; [apply (read_reads _ 10); vm_compute; reflexivity|]. split; [reflexivity|].
  intros p s x Hp Hx. simpl in Hp.
  repeat match goal with H : _ \/ _ |- _ => destruct H as [H|H] | H : False |- _ => destruct H | H : (_, _) = (_, _) |- _ => injection H as <- <-; simpl in Hx end;
    subst; vm_compute; reflexivity.
Qed.
