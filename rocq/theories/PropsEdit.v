(** Property theorems: ChangeSet (C32, C33). *)
From Coq Require Import Lia Permutation.
From Verif Require Import Base Pointer Index Tree Builder Hist Node Iter Query Edit Spec SpecSpan SpecEq SpecEdit Rep Marks Refine TreeRep
  Enum Walk WalkTree WalkThms Nav Bounds DocInv Layout PropsTree PropsSpan PropsEq PropsFused PropsSafe PropsWith Modify Replaced Copy Demo SpecMap SpecEdit.

(** ** Preliminaries *)
Lemma modify_loop_more T F c nodes : forall fuel r (o : tree T) cur current x,
  modify_loop fuel F c nodes r o cur current = x -> x <> Diverge ->
  forall more, modify_loop (fuel + more) F c nodes r o cur current = x.
Proof.
  induction fuel as [|fuel IH]; intros r o cur current x E Hx more.
  - simpl in E. destruct current as [[n first]|]; [congruence|]. destruct more; auto.
  - cbn [plus]. simpl in *. destruct current as [[n first]|]; auto.
    destruct (pointer_new F (tree_len o)) as [id|]; auto.
    destruct (changed c id).
    + destruct (skip_subtree nodes r n first) as [r1 [[n1 first1]|]]; auto.
      destruct (emit F r1 o cur id n1 first1) as [[[r2 o2] cur2] [?|?|]]; auto.
      destruct (refactor_step nodes r2 n1 id) as [r3 c3]. apply IH; auto.
    + destruct (emit F r o cur id n first) as [[[r2 o2] cur2] [?|?|]]; auto.
      destruct (refactor_step nodes r2 n id) as [r3 c3]. apply IH; auto.
Qed.
Lemma modify_more T F c (t : tree T) fuel x : modify fuel F c t = x -> x <> Diverge -> forall more, modify (fuel + more) F c t = x.
Proof.
  unfold modify. intros E Hx more.
  remember (modify_loop fuel F c (t_nodes t) (Refactor [] None) tree_new ix_EMPTY (option_map (fun n => (n, false)) (tree_first t))) as y eqn:Ey.
  rewrite (modify_loop_more _ _ _ _ _ _ _ _ _ _ (eq_sym Ey)); auto. destruct y; congruence.
Qed.

Lemma pointers_hits F c : pointers F c -> forall m, changed c m = true -> (N.of_nat m < int_max F (fl_width F))%N.
Proof. intros H m Hm. apply H. unfold changed in Hm. apply existsb_exists in Hm as (y & Hy & E). apply Nat.eqb_eq in E. subst; auto. Qed.

Lemma made_finished {T} (F : flavor) (ops : list (op T)) t l : finished F ops t l -> Forall (op_wf F) ops -> made F t l.
Proof. intros (H1 & H2 & H3 & _) H. apply (made_built F ops); auto. Qed.
Lemma made_facts T F (t : tree T) l : made F t l -> vec_flavor F /\ tree_rep t l /\ zero_spans F l /\
  (N.of_nat (length (preorder_list l)) <= int_max F (fl_width F))%N.
Proof.
  induction 1 as [ops t l HF Hd Hb Hw|fuel c t l t' l' n s Hm (HF & Hr & Hz & Hl) Hp He E|t l i n v t' old Hm (HF & Hr & Hz & Hl) Hn E].
  - assert (Hr : tree_rep t l) by (eapply built_rep; eauto). split; auto. split; auto. split.
    + intros HI x Hx. destruct (in_sibling_lists _ _ Hx) as (p & s1 & s2 & Hs). pose proof (node_links _ _ _ _ _ _ Hr Hs) as E.
      assert (En : tree_get t (r_id x) = Some (r_id x, links_of (pid p) (last_id s1 None) (hd_id s2 None) x)) by (unfold tree_get, node_at; rewrite E; auto).
      pose proof (C35_in_range T F ops Hw) as (_ & _ & G). unfold builds, build in Hb.
      destruct (b_parent (w_builder (run_world F ops))); [discriminate|]. injection Hb as <-.
      destruct (G _ _ En) as [G1 G2]. unfold node_span in G1, G2. cbn [snd] in G1, G2. destruct x as [i k d [a b] kids]. cbn in G1, G2.
      unfold ix_max in *. rewrite HI in *. simpl. f_equal; lia.
    + pose proof (built_bounded F ops t l HF Hd Hb). pose proof (tr_length _ _ Hr) as E.
      unfold size_l in E. lia.
  - split; auto. pose proof (modify_exact T F t l c HF Hr Hz (pointers_hits F c Hp) l' n s He) as [[B G]|[B G]].
    + destruct (G (S n) (le_n _)) as (t2 & E2 & _ & R & _).
      assert (t2 = t') as ->.
      { assert (A : modify (fuel + S (S n)) F c t = Ok t') by (apply modify_more; auto; discriminate).
        assert (A2 : modify (S (S n) + fuel) F c t = Ok t2) by (apply modify_more; auto; discriminate).
        rewrite Nat.add_comm in A. congruence. }
      split; auto. split.
      * intros HI. eapply edited_zero; eauto.
      * pose proof (edited_size _ _ _ _ _ _ _ _ _ _ _ He). destruct B. simpl in *. subst n. auto.
    + exfalso. specialize (G (S n) (le_n _)).
      assert (A : modify (fuel + S (S n)) F c t = Ok t') by (apply modify_more; auto; discriminate).
      assert (A2 : modify (S (S n) + fuel) F c t = Err Overflow) by (apply modify_more; auto; discriminate).
      rewrite Nat.add_comm in A. congruence.
  - split; auto. split; [apply (replaced_rep i v t l n t' old Hr Hn E)|]. split; [apply replaced_zero; auto|].
    rewrite sv_preorder_list, map_length. auto.
Qed.

Lemma edited_numbered T c top f n s (xs : list (rose T)) xs' n' s' up : edited c top f n s xs xs' n' s' up -> numbered n xs'.
Proof.
  intros H. pose proof H as H0. induction H as [tp force n s|tp force n s i k d sp xs xs' n2 s2 up Hck H IH|tp force n s i k d sp y kids kids' n1 s1 xs xs' n2 s2 up Hck HK IHK H IH
    |tp force n s i k d sp y kids kids' n1 s1 xs xs' n2 s2 up Hck HK IHK H IH|tp n s x y xs out n2 s2 up Hck H IH|n s x Hck|n s x Hck];
    try reflexivity; auto; unfold numbered in *; rewrite pre_len; unfold preorder_list in *; cbn [flat_map preorder] in *; rewrite <- app_comm_cons; cbn [map r_id seq]; f_equal.
  - cbn [flat_map app length plus]. auto.
  - pose proof (edited_size _ _ _ _ _ _ _ _ _ _ _ HK) as E1. unfold preorder_list in E1. rewrite map_app, IHK, IH, seq_app by auto. subst n1. reflexivity.
  - pose proof (edited_size _ _ _ _ _ _ _ _ _ _ _ HK) as E1. unfold preorder_list in E1. rewrite map_app, IHK, IH, seq_app by auto. subst n1. reflexivity.
Qed.

Lemma len_fits {T} F (t t' : tree T) l l' : tree_rep t l -> tree_rep t' l' -> length (preorder_list l') <= length (preorder_list l) ->
  fits F t -> fits F t'.
Proof.
  intros H H' Hl. unfold fits. pose proof (tr_length _ _ H) as E. pose proof (tr_length _ _ H') as E'. unfold size_l in *. lia.
Qed.

(** ** C33: what any set of removals does *)

(** For every tree and every set of removals, modify returns: the tree that [edited] describes, or
    an overflow when that tree does not fit the pointer or index types.  Its nodes are numbered in walk order. *)
Theorem C33_outcome : forall T F (t : tree T) l c, made F t l -> pointers F c ->
  exists l' n s, edited c true false 0 0 l l' n s false /\ n = length (preorder_list l') /\ in_order l' /\
  forall fuel, n + 2 <= fuel ->
    ((N.of_nat n <= int_max F (fl_width F))%N /\ (s <= ix_max F)%N ->
       exists t', modify fuel F c t = Ok t' /\ made F t' l' /\ t_span t' = Span 0 s /\ (fits F t' -> presents F t' l')) /\
    (~ ((N.of_nat n <= int_max F (fl_width F))%N /\ (s <= ix_max F)%N) -> modify fuel F c t = Err Overflow).
Proof.
  intros T F t l c Hm Hp. destruct (made_facts T F t l Hm) as (HF & Hr & Hz & _). pose proof (pointers_hits F c Hp) as Hh.
  destruct (edited_total T c (S (fold_right max 0 c))) with (w := S (fold_right max 0 c)) (top := true) (forced := false) (n := 0) (s := 0%N) (xs := l)
    as (l' & n & s & up & He).
  { intros i Hi. apply existsb_exists in Hi as (y & Hy & E). apply Nat.eqb_eq in E. subst y.
    clear -Hy. induction c; simpl in *; [tauto|]. destruct Hy as [->|Hy]; [lia|]. specialize (IHc Hy). lia. }
  { lia. }
  destruct up. { destruct (edited_up _ _ _ _ _ _ _ _ _ _ _ He eq_refl). discriminate. }
  exists l', n, s. split; auto. split; [apply (edited_size _ _ _ _ _ _ _ _ _ _ _ He)|]. split; [apply (edited_numbered _ _ _ _ _ _ _ _ _ _ _ He)|].
  intros fuel Hfu. destruct fuel as [|fuel]; [lia|].
  destruct (modify_exact T F t l c HF Hr Hz Hh l' n s He) as [[B G]|[B G]]; specialize (G fuel ltac:(lia)); unfold bound in B; (split; [intros B'|intros B']); try tauto.
  destruct G as (t' & E & S & R & _). exists t'. split; auto. split; [eapply made_modified; eauto|]. split; auto. intros Hf.
  apply rep_presents; auto. eapply edited_kinds; eauto.
Qed.
Print Assumptions C33_outcome.

(** What [changed] stands for in [edited]: the identifiers that were registered, all of them and no others. *)
Lemma removals_in ids i : In i (removals ids) <-> In i ids.
Proof.
  unfold removals, changeset_new. enough (H : forall c, In i (fold_left (fun c i => changeset_remove i c) ids c) <-> In i ids \/ In i c) by (rewrite H; simpl; tauto).
  induction ids as [|a ids IH]; intros c; simpl; [tauto|]. rewrite IH. unfold changeset_remove. simpl. tauto.
Qed.
Lemma changed_in c i : changed c i = true <-> In i c.
Proof.
  unfold changed. rewrite existsb_exists. split; [intros (x & H & E); apply Nat.eqb_eq in E; subst; auto|].
  intros H. exists i. split; auto. apply Nat.eqb_refl.
Qed.
Theorem C33_changes : forall ids i, changed (removals ids) i = true <-> In i ids.
Proof. intros ids i. rewrite changed_in. apply removals_in. Qed.
Print Assumptions C33_changes.

(** Only the set of registered identifiers counts: registering them in another order, or some of them more than once, changes nothing. *)
Theorem C33_same_set : forall T fuel F (t : tree T) ids ids', (forall i, In i ids <-> In i ids') ->
  modify fuel F (removals ids) t = modify fuel F (removals ids') t.
Proof.
  intros T fuel F t ids ids' H.
  assert (E : forall i, changed (removals ids) i = changed (removals ids') i).
  { intros i. destruct (changed (removals ids) i) eqn:A, (changed (removals ids') i) eqn:B; auto; exfalso.
    - apply C33_changes, H, C33_changes in A. congruence.
    - apply C33_changes, H, C33_changes in B. congruence. }
  unfold modify. enough (L : forall r o cur current, modify_loop fuel F (removals ids) (t_nodes t) r o cur current = modify_loop fuel F (removals ids') (t_nodes t) r o cur current) by (rewrite L; auto).
  induction fuel as [|fuel IH]; intros r o cur [[n b]|]; auto. cbn [modify_loop]. destruct (pointer_new F (tree_len o)) as [id|]; auto. rewrite E.
  destruct (changed (removals ids') id).
  - destruct (skip_subtree (t_nodes t) r n b) as [r1 [[n1 b1]|]]; auto.
    destruct (emit F r1 o cur id n1 b1) as [[[r2 o2] c2] [u|e|]]; auto. destruct (refactor_step (t_nodes t) r2 n1 id). auto.
  - destruct (emit F r o cur id n b) as [[[r2 o2] c2] [u|e|]]; auto. destruct (refactor_step (t_nodes t) r2 n id). auto.
Qed.
Print Assumptions C33_same_set.

(** ** C32 *)

(** Modifying with no changes makes a copy of the same shape with the same values (see [copied]), numbered in
    walk order. *)
Theorem C32_copy_partial : forall T F (t : tree T) l fuel, made F t l -> fits F t -> (total_width l <= ix_max F)%N ->
  length (preorder_list l) + 2 <= fuel ->
  exists t' l', modify fuel F changeset_new t = Ok t' /\ made F t' l' /\ presents F t' l' /\ in_order l' /\
    copied_list 0 l l' (total_width l) /\ t_span t' = Span 0 (total_width l).
Proof.
  intros T F t l fuel Hm Hfit Hw Hfu. destruct (made_facts T F t l Hm) as (HF & Hr & Hz & Hl).
  destruct (edited_copy T [] _ l (le_n _) true false 0 0%N) as (l' & He & Hc); [auto|].
  simpl plus in *. rewrite N.add_0_l in *. destruct fuel as [|fuel]; [lia|].
  assert (Hp : pointers F []) by (intros i []).
  destruct (modify_exact T F t l [] HF Hr Hz (pointers_hits F [] Hp) l' _ _ He) as [[B G]|[B G]].
  - destruct (G fuel ltac:(lia)) as (t' & E & S & R & _). exists t', l'. split; auto. split; [eapply made_modified; eauto|].
    pose proof (edited_size _ _ _ _ _ _ _ _ _ _ _ He) as Es.
    split; [|split; [apply (edited_numbered _ _ _ _ _ _ _ _ _ _ _ He)|auto]].
    apply rep_presents; auto; [|eapply edited_kinds; eauto]. apply (len_fits F t t' l l'); auto. lia.
  - exfalso. apply B. split; auto.
Qed.
Print Assumptions C32_copy_partial.

Lemma tile_width T s (xs : list (rose T)) e : tile s (map (@r_span T) xs) e ->
  (s + fold_right (fun x s => width (r_span x) + s) 0 xs = e)%N.
Proof.
  revert s. induction xs as [|x xs IH]; intros s; simpl; [lia|]. intros (H1 & H2 & H3). apply IH in H3. unfold width at 1. lia.
Qed.
Lemma laid_width T s (l : list (rose T)) e : laid_list s l e -> (s + total_width l = e)%N.
Proof. intros H. apply laid_tiles in H. apply tile_width in H. exact H. Qed.

Lemma plain_width T F (ops : list (op T)) t l : plain_run F ops t l -> Forall (op_wf F) ops ->
  total_width l = total_of F ops /\ (total_width l <= ix_max F)%N.
Proof.
  intros H Hw. destruct (plain_facts T F ops t l H) as (A & B & _). apply laid_width in A. rewrite N.add_0_l in A. split; auto.
  rewrite A. destruct H as (_ & Hf & _). pose proof (C35_in_range T F ops Hw) as (_ & [G1 G2] & _).
  destruct Hf as (_ & _ & Hb & _). unfold builds, build in Hb.
  destruct (b_parent (w_builder (run_world F ops))); [discriminate|]. injection Hb as <-. rewrite B in G2. auto.
Qed.

Scheme copied_mind := Induction for copied Sort Prop
  with copied_list_mind := Induction for copied_list Sort Prop.
Combined Scheme copied_both from copied_mind, copied_list_mind.

Lemma copied_start T s (x x' : rose T) e : copied s x x' e -> s_start (r_span x') = s.
Proof. intros H. inversion H; auto. Qed.

Lemma copied_laid T :
  (forall s (x x' : rose T) e, copied s x x' e -> forall e2, laid s x e2 -> e2 = e /\ alike_but_ends x x') /\
  (forall s (l l' : list (rose T)) e, copied_list s l l' e -> forall e2, laid_list s l e2 -> e2 = e /\ Forall2 alike_but_ends l l').
Proof.
  apply copied_both.
  - intros s i k d sp i' k' e2 H.
    assert (E : sp = Span s e2 /\ (s <= e2)%N).
    { pose proof (laid_span _ _ _ H). pose proof (laid_le _ _ _ H). simpl in *. auto. }
    destruct E as [-> E]. unfold width. simpl. replace (s + (e2 - s))%N with e2 by lia. split; auto. constructor.
  - intros s e i k d sp x kids i' k' kids' _ IH e2 H. inversion H; subst.
    destruct (IH _ ltac:(eassumption)) as [-> IH']. split; auto. inversion IH'; subst. constructor; auto.
  - intros s e2 H. inversion H; auto.
  - intros s m e x x' l l' _ IHx _ IHl e2 H. inversion H; subst.
    destruct (IHx _ ltac:(eassumption)) as [-> A]. destruct (IHl _ ltac:(eassumption)) as [-> B]. auto.
Qed.

(** In trees built with plain calls all that can be wrong is where nodes with children end. *)
Theorem C32_plain_partial : forall T F (ops : list (op T)) t l fuel, plain_run F ops t l -> Forall (op_wf F) ops ->
  length (preorder_list l) + 2 <= fuel ->
  exists t' l', modify fuel F changeset_new t = Ok t' /\ made F t' l' /\ presents F t' l' /\
    Forall2 alike_but_ends l l' /\ t_span t' = t_span t.
Proof.
  intros T F ops t l fuel H Hw Hfu. pose proof H as (_ & Hf & _). pose proof (plain_width T F ops t l H Hw) as (W1 & W2).
  destruct (C32_copy_partial T F t l fuel (made_finished F ops t l Hf Hw) (proj2 (proj2 (proj2 Hf))) W2 Hfu) as (t' & l' & E & M & P & _ & C & S).
  exists t', l'. split; auto. split; auto. split; auto. destruct (plain_facts T F ops t l H) as (A & B & _).
  split; [apply (proj2 (copied_laid T) _ _ _ _ C _ A)|]. congruence.
Qed.
Print Assumptions C32_plain_partial.

(** When nothing is wrong. *)
Definition flat_ends {T} (l : list (rose T)) : Prop :=
  forall x y, In x (preorder_list l) -> last_error (r_kids x) = Some y -> r_kids y = [] \/ span_is_empty (r_span y) = true.

Lemma laid_last T s (l : list (rose T)) e y : laid_list s l e -> last_error l = Some y -> s_end (r_span y) = e.
Proof.
  intros H. revert y. induction H as [s|s x m l e Hx Hl IH]; intros y E; [discriminate|].
  destruct l as [|z l]; [|apply IH; auto]. injection E as <-. inversion Hl; subst. rewrite (laid_span _ _ _ Hx). auto.
Qed.

Lemma copied_last_reach T s (l l' : list (rose T)) e : copied_list s l l' e -> laid_list s l e ->
  forall y, last_error l = Some y ->
  (last_reach s l' = s_end (r_span y) <-> r_kids y = [] \/ span_is_empty (r_span y) = true).
Proof.
  induction 1 as [s|s m e x x' l l' Hx Hl IH]; intros HL y E; [discriminate|]. inversion HL; subst.
  destruct (proj1 (copied_laid T) _ _ _ _ Hx _ ltac:(eassumption)) as [-> A].
  destruct l as [|z l].
  - injection E as <-. inversion Hl; subst. unfold last_reach. simpl. unfold reach.
    match goal with G : laid s x _ |- _ => pose proof (laid_span _ _ _ G) as Es; pose proof (laid_le _ _ _ G) as El end.
    unfold span_is_empty. rewrite Es. simpl. rewrite N.eqb_eq.
    inversion Hx; subst; simpl in *.
    + split; auto.
    + inversion A; subst. simpl. 
      split; [intros <-; auto|intros [?|?]; [discriminate|auto]].
  - inversion Hl; subst. assert (Hl2 : last_reach s (x' :: x'0 :: l'0) = last_reach m (x'0 :: l'0)).
    { unfold last_reach. rewrite last_error_cons. destruct (last_error (x'0 :: l'0)) eqn:E2; auto.
      destruct l'0 as [|? l'0 _] using rev_ind; [discriminate|]. rewrite app_comm_cons, last_error_snoc in E2. discriminate. }
    rewrite Hl2. apply IH; auto.
Qed.

Lemma copied_exact T eqT : (forall a b : T, eqT a b = true <-> a = b) ->
  (forall s (x x' : rose T) e, copied s x x' e -> laid s x e -> (alike eqT x' x <-> flat_ends [x])) /\
  (forall s (l l' : list (rose T)) e, copied_list s l l' e -> laid_list s l e -> (Forall2 (alike eqT) l' l <-> flat_ends l)).
Proof.
  intros Heq.
  assert (FE : forall i k d sp kids, flat_ends [Nd i k d sp kids] <->
     ((forall y : rose T, last_error kids = Some y -> r_kids y = [] \/ span_is_empty (r_span y) = true) /\ flat_ends kids)).
  { intros. unfold flat_ends. split.
    - intros H. split.
      + intros y Hy. apply (H (Nd i k d sp kids)); auto. apply in_pre_cons; auto.
      + intros x y Hx. apply H. apply in_pre_cons. auto.
    - intros [H1 H2] x y Hx Hy. apply in_pre_cons in Hx as [->|[Hx|[]]]; eauto. }
  apply copied_both.
  - intros s i k d sp i' k' H. rewrite FE. pose proof (laid_span _ _ _ H) as E. pose proof (laid_le _ _ _ H). simpl in E. rewrite <- E. split.
    + intros _. split; [intros y Hy; discriminate|intros x y []].
    + intros _. constructor; auto. apply Heq; auto.
  - intros s e i k d sp x kids i' k' kids' HC IH H. rewrite FE. inversion H; subst.
    specialize (IH ltac:(assumption)). rewrite <- IH.
    match goal with G : laid_list s (x :: kids) e |- _ => rename G into HL end.
    assert (exists y, last_error (x :: kids) = Some y) as [y Ey].
    { destruct (last_error (x :: kids)) eqn:E2; eauto. destruct kids as [|z kids _] using rev_ind; [discriminate|].
      rewrite app_comm_cons, last_error_snoc in E2. discriminate. }
    pose proof (laid_last _ _ _ _ _ HL Ey) as Ee. pose proof (copied_last_reach _ _ _ _ _ HC HL y Ey) as R. rewrite Ee in R.
    split.
    + intros A. inversion A; subst. split; auto. intros z Ez. rewrite Ey in Ez. injection Ez as <-. apply R. auto.
    + intros [A B]. rewrite (proj2 R (A y Ey)). constructor; auto. apply Heq; auto.
  - intros s _. split; [intros _ x y []|constructor].
  - intros s m e x x' l l' HX IHx HC IHl H. inversion H as [|? ? m2 ? ? Lx Ll]; subst.
    destruct (proj1 (copied_laid T) _ _ _ _ HX _ Lx) as [-> _]. specialize (IHx Lx). specialize (IHl Ll).
    assert (E : flat_ends (x :: l) <-> flat_ends [x] /\ flat_ends l).
    { unfold flat_ends, preorder_list. cbn [flat_map]. split.
      - intros G. split; intros a b Ha; apply G; apply in_app_iff; rewrite ?app_nil_r in *; auto.
      - intros [G1 G2] a b Ha Hb. apply in_app_iff in Ha as [Ha|Ha]; [apply (G1 a b); [rewrite app_nil_r; auto|auto]|apply (G2 a b); auto]. }
    rewrite E, <- IHx, <- IHl. split; [intros G; inversion G; auto|intros [? ?]; constructor; auto].
Qed.

Lemma eq_depths T (eqT : T -> T -> bool) F (t1 : tree T) l1 (t2 : tree T) l2 it1 it2 : tree_len t1 = length (preorder_list l1) ->
  enumerates (walk_depths_next F (t_nodes t1)) (tree_walk t1) it1 ->
  map (fun i => (fst i, view (snd i))) it1 = map (fun i => (fst i, rview (snd i))) (flat_map (preorder_depth 0) l1) ->
  enumerates (walk_depths_next F (t_nodes t2)) (tree_walk t2) it2 ->
  map (fun i => (fst i, view (snd i))) it2 = map (fun i => (fst i, rview (snd i))) (flat_map (preorder_depth 0) l2) ->
  exists b, tree_eq F F eqT t1 t2 = Ok b /\ (b = true <-> Forall2 (alike eqT) l1 l2).
Proof.
  intros L1 En1 V1 En2 V2.
  exists (all2 (item_eq eqT) it1 it2). split.
  - unfold tree_eq. apply iter_eq_all2; auto. rewrite L1, <- PropsFused.preorder_depth_len.
    rewrite <- (map_length (fun i => (fst i, rview (snd i)))), <- V1, map_length. auto.
  - rewrite (items_meet eqT it1 it2 _ _ V1 V2). split; intros H.
    + eapply (depths_alike eqT _ l1 l2 0%Z [] []); simpl; auto. rewrite !app_nil_r. auto.
    + eapply alike_depths; eauto.
Qed.

Lemma finished_depths T F (ops : list (op T)) t l : finished F ops t l ->
  tree_len t = length (preorder_list l) /\
  exists items, enumerates (walk_depths_next F (t_nodes t)) (tree_walk t) items /\
    map (fun i => (fst i, view (snd i))) items = map (fun i => (fst i, rview (snd i))) (flat_map (preorder_depth 0) l).
Proof.
  intros H. split; [apply (tr_length _ _ (fin_rep F ops t l H))|]. apply (walk_depths_thm F ops t l H).
Qed.

(** The copy equals the original exactly when every node's last child is childless or empty. *)
Theorem C32_equal_partial : forall T (eqT : T -> T -> bool) F (ops : list (op T)) t l fuel,
  (forall a b, eqT a b = true <-> a = b) -> plain_run F ops t l -> Forall (op_wf F) ops ->
  length (preorder_list l) + 2 <= fuel ->
  exists t' b, modify fuel F changeset_new t = Ok t' /\ tree_eq F F eqT t' t = Ok b /\ (b = true <-> flat_ends l).
Proof.
  intros T eqT F ops t l fuel Heq H Hw Hfu. pose proof H as (_ & Hf & _). pose proof (plain_width T F ops t l H Hw) as (W1 & W2).
  destruct (C32_copy_partial T F t l fuel (made_finished F ops t l Hf Hw) (proj2 (proj2 (proj2 Hf))) W2 Hfu) as (t' & l' & E & M & P & _ & C & S).
  destruct (plain_facts T F ops t l H) as (A & B & _).
  assert (exists b, tree_eq F F eqT t' t = Ok b /\ (b = true <-> Forall2 (alike eqT) l' l)) as (b & Eb & Hb).
  { destruct P as (L1 & (it1 & En1 & V1) & _). destruct (finished_depths T F ops t l Hf) as (L2 & it2 & En2 & V2).
    eapply eq_depths; eauto. }
  exists t', b. split; auto. split; auto. rewrite Hb. rewrite <- W1 in A. apply (proj2 (copied_exact T eqT Heq) _ _ _ _ C A).
Qed.
Print Assumptions C32_equal_partial.

(** The full claim is false: root{child{lit:3}}: the copy of root has an empty span. *)
Definition c32_ops : list (op nat) := [OOpen 0; OOpen 1; OToken 2 3%N; OClose; OClose].
Theorem C32_refuted : exists t t' n, plain_run flavor_default c32_ops t
    [Nd 0 KOpen 0 (Span 0 3) [Nd 1 KOpen 1 (Span 0 3) [Nd 2 KLeaf 2 (Span 0 3) []]]] /\
  modify 10 flavor_default changeset_new t = Ok t' /\ tree_eq flavor_default flavor_default Nat.eqb t' t = Ok false /\
  tree_get t' 0 = Some n /\ node_span n = Span 0 0.
Proof.
  exists (tree_so_far flavor_default c32_ops). do 2 eexists. split; [split; [discriminate|split]|].
  - compute_finished.
  - vm_compute. repeat split; intros; discriminate.
  - split; [vm_compute; reflexivity|]. split; [vm_compute; reflexivity|]. split; vm_compute; reflexivity.
Qed.
Print Assumptions C32_refuted.

(** ** C33 *)
Lemma without_len T k (l : list (rose T)) : length (preorder_list (flat_map (without k) l)) <= length (preorder_list l).
Proof.
  remember (length (preorder_list l)) as w eqn:Ew. assert (Hw : length (preorder_list l) <= w) by lia. rewrite Ew. clear Ew. revert l Hw.
  induction w as [|w IH]; intros l Hw.
  { destruct l as [|[? ? ? ? ?] l]; [auto|rewrite pre_len in Hw; lia]. }
  destruct l as [|[i kd d sp kids] l]; [auto|]. rewrite pre_len in *. cbn [flat_map without]. pose proof (IH l ltac:(lia)). pose proof (IH kids ltac:(lia)).
  destruct (Nat.eqb i k); cbn [app]; [lia|]. rewrite pre_len. lia.
Qed.

(** Removing one node from a tree whose nodes are numbered in walk order: right when the node is a root or has a later sibling. *)
Theorem C33_single_partial : forall T F (t : tree T) l k fuel, made F t l -> fits F t -> in_order l ->
  (total_width l <= ix_max F)%N -> has_successor k l -> length (preorder_list l) + 2 <= fuel ->
  exists t' l' e, modify fuel F (changeset_remove k changeset_new) t = Ok t' /\ made F t' l' /\ presents F t' l' /\ in_order l' /\
    copied_list 0 (flat_map (without k) l) l' e /\ t_span t' = Span 0 e.
Proof.
  intros T F t l k fuel Hm Hfit Ho Hw (p & s1 & x & s2 & Hs & Hx & Hl') Hfu. destruct (made_facts T F t l Hm) as (HF & Hr & Hz & Hl).
  assert (Hxin : In x (preorder_list l)) by (eapply sibling_list_in; [exact Hs|apply in_elt]).
  assert (Hord : numbered 0 l) by exact Ho.
  pose proof (numbered_in _ _ _ _ Hord Hxin) as Hb. rewrite Hx in Hb.
  assert (Hc : forall i, changed [k] i = true <-> i = k).
  { intros i. unfold changed. simpl. rewrite orb_false_r, Nat.eqb_eq. tauto. }
  assert (Hg : may_go k true l).
  { intros q u1 y u2 Hq Ey.
    pose proof (node_links _ _ _ _ _ _ Hr Hs) as A1. pose proof (node_links _ _ _ _ _ _ Hr Hq) as A2.
    rewrite Ey in A2. rewrite Hx in A1. rewrite A1 in A2. injection A2 as _ _ Ep _ En _ _.
    destruct Hl' as [->|Hne]; [left|right].
    - destruct q; [discriminate|auto].
    - destruct s2; [congruence|]. destruct u2; [discriminate|discriminate]. }
  destruct (edited_single T [k] k Hc _ l (le_n _) true 0 0%N Hord Hg Hb) as (l' & He & Hcp & _).
  cbv zeta in *. rewrite N.add_0_l in *. destruct fuel as [|fuel]; [lia|].
  pose proof (edited_size _ _ _ _ _ _ _ _ _ _ _ He) as Es.
  pose proof (without_len _ k l) as Hlen.
  assert (Hp : pointers F [k]) by (intros i [<-|[]]; lia).
  assert (Hw2 : (total_width (flat_map (without k) l) <= ix_max F)%N).
  { pose proof (without_width T k l _ (le_n _)) as G. lapply G; [lia|]. clear G.
    intros y Hy Hk. destruct (r_kids y) as [|z kids] eqn:Ek; [congruence|]. clear Hk.
    assert (Hkl : In (Some y, z :: kids) (sibling_lists l)) by (rewrite <- Ek; apply kids_sibling_list; auto).
    pose proof (nodup_r_id t l Hr _ _ Hkl) as ND.
    destruct z as [i kd d sp ks]. simpl. destruct (Nat.eqb_spec i k) as [->|_]; [|discriminate].
    destruct (Hg _ [] _ _ Hkl eq_refl) as [[? _]|Hne]; [discriminate|]. destruct kids as [|[i2 kd2 d2 sp2 ks2] kids]; [congruence|].
    simpl. destruct (Nat.eqb_spec i2 k) as [->|_]; [|discriminate]. inversion ND as [|? ? Hni _]; subst. exfalso. apply Hni. left. reflexivity. }
  destruct (modify_exact T F t l [k] HF Hr Hz (pointers_hits F [k] Hp) l' _ _ He) as [[B G]|[B G]].
  - destruct (G fuel ltac:(lia)) as (t' & E & S & R & _). exists t', l', (total_width (flat_map (without k) l)). split; [exact E|]. split; [eapply made_modified; eauto|].
    split; [|split; [apply (edited_numbered _ _ _ _ _ _ _ _ _ _ _ He)|auto]].
    apply rep_presents; auto; [|eapply edited_kinds; eauto]. apply (len_fits F t t' l l'); auto. lia.
  - exfalso. apply B. split; [lia|auto].
Qed.
Print Assumptions C33_single_partial.

Lemma emit_len T F r (o : tree T) cur id n first r2 o2 cur2 u : emit F r o cur id n first = ((r2, o2, cur2), Ok u) ->
  fl_storage F = SVec -> tree_len o2 = S (tree_len o).
Proof.
  intros E HS. unfold emit in E. unfold tree_len.
  set (o1 := match r_parents r with [] => _ | _ => o end) in E.
  assert (L1 : length (t_nodes o1) = length (t_nodes o)).
  { unfold o1. destruct (r_parents r); auto. destruct (t_first o); auto. }
  clearbody o1. cbv zeta in E.
  set (q := if first then _ else _) in E.
  assert (Lq : length (t_nodes (snd q)) = length (t_nodes o1)).
  { unfold q. destruct first; auto. simpl. destruct (r_prev r); auto. simpl. apply length_upd. }
  clearbody q. destruct q as [[r3 prev] o3]. cbn [snd] in Lq.
  set (m := if negb (has_children n) && negb (span_is_empty (node_span n)) then _ else _) in E.
  assert (Lm : forall o4 c4 sp, m = inl (o4, c4, sp) -> length (t_nodes o4) = length (t_nodes o3)).
  { unfold m. intros o4 c4 sp Em. destruct (negb _ && negb _); [|injection Em as <- _ _; auto].
    unfold tree_push_index in Em. destruct (storage_push (fl_indexes F) (t_indexes o3) (cur, id)); [|discriminate]. simpl in Em.
    destruct (ix_checked_add_len F cur (span_len F (node_span n))); [|discriminate]. injection Em as <- _ _. auto. }
  clearbody m. destruct m as [[[o4 c4] sp]|e]; [|discriminate]. specialize (Lm o4 c4 sp eq_refl).
  unfold tree_push in E. rewrite HS in E. cbn [storage_push option_map] in E. injection E as _ <- _ _.
  destruct (r_parents r3) as [|[? pid] ?]; cbn [set_t_nodes t_nodes]; rewrite app_length; simpl; rewrite ?length_upd; lia.
Qed.

Lemma loop_grows T F c nodes : fl_storage F = SVec -> forall fuel r (o : tree T) cur current o' x,
  modify_loop fuel F c nodes r o cur current = Ok (o', x) -> tree_len o <= tree_len o'.
Proof.
  intros HS. induction fuel as [|fuel IH]; intros r o cur current o' x E.
  - simpl in E. destruct current as [[n first]|]; [discriminate|]. injection E as <- _. auto.
  - simpl in E. destruct current as [[n first]|]; [|injection E as <- _; auto].
    destruct (pointer_new F (tree_len o)) as [id|]; [|discriminate].
    assert (G : forall r1 n1 first1, match emit F r1 o cur id n1 first1 with
       | ((r, output, cursor), Ok _) => let '(r, current) := refactor_step nodes r n1 id in modify_loop fuel F c nodes r output cursor current
       | (_, Err e) => Err e | (_, Diverge) => Diverge end = Ok (o', x) -> tree_len o < tree_len o').
    { intros r1 n1 first1 E1. destruct (emit F r1 o cur id n1 first1) as [[[r2 o2] cur2] [?|?|]] eqn:Ee; try discriminate.
      apply emit_len in Ee; auto. destruct (refactor_step nodes r2 n1 id) as [r3 c3]. apply IH in E1. lia. }
    destruct (changed c id).
    + destruct (skip_subtree nodes r n first) as [r1 [[n1 first1]|]]; [apply G in E; lia|injection E as <- _; auto].
    + apply G in E. lia.
Qed.

Lemma loop_no_hit T F c nodes L : fl_storage F = SVec -> (forall i, changed c i = true -> L <= i) ->
  forall fuel r (o : tree T) cur current o' x,
  modify_loop fuel F [] nodes r o cur current = Ok (o', x) -> tree_len o' <= L ->
  modify_loop fuel F c nodes r o cur current = Ok (o', x).
Proof.
  intros HS HL. induction fuel as [|fuel IH]; intros r o cur current o' x E Hl; auto.
  simpl in *. destruct current as [[n first]|]; auto. rewrite pointer_new_spec in *.
  destruct (N.leb (int_max F (fl_width F)) (N.of_nat (tree_len o))); [discriminate|].
  destruct (emit F r o cur (tree_len o) n first) as [[[r2 o2] cur2] [?|?|]] eqn:Ee; try discriminate.
  pose proof (emit_len _ _ _ _ _ _ _ _ _ _ _ _ Ee HS) as E2. destruct (refactor_step nodes r2 n (tree_len o)) as [r3 c3].
  pose proof (loop_grows _ _ _ _ HS _ _ _ _ _ _ _ E) as E3.
  destruct (changed c (tree_len o)) eqn:Ec; [apply HL in Ec; lia|]. apply IH; auto.
Qed.

(** Removing nodes that do not exist changes nothing: the same as no change. *)
Theorem C33_unknown : forall T F (t : tree T) l c fuel, made F t l -> fits F t -> (total_width l <= ix_max F)%N ->
  (forall i, In i c -> length (preorder_list l) <= i) -> length (preorder_list l) + 2 <= fuel ->
  modify fuel F c t = modify fuel F changeset_new t.
Proof.
  intros T F t l c fuel Hm Hfit Hw Hc Hfu.
  destruct (C32_copy_partial T F t l fuel Hm Hfit Hw Hfu) as (t' & l' & E & Hm' & P & _ & Cp & _).
  assert (HL : tree_len t' <= length (preorder_list l)).
  { destruct P as (P & _). rewrite P. clear -Cp. assert (G : (forall s (x x' : rose T) e, copied s x x' e -> length (preorder x') = length (preorder x)) /\
      (forall s (l l' : list (rose T)) e, copied_list s l l' e -> length (preorder_list l') = length (preorder_list l))).
    { apply copied_both; intros; simpl in *; auto. unfold preorder_list in *. simpl. rewrite !app_length. lia. }
    rewrite (proj2 G _ _ _ _ Cp). auto. }
  rewrite E. destruct (made_facts T F t l Hm) as ((HS & _) & _). unfold modify in *. unfold changeset_new in E.
  destruct (modify_loop fuel F [] (t_nodes t) (Refactor [] None) tree_new ix_EMPTY (option_map (fun n => (n, false)) (tree_first t))) as [[o x]|e|] eqn:El; try discriminate.
  injection E as <-. rewrite (loop_no_hit T F c (t_nodes t) (length (preorder_list l)) HS) with (o' := o) (x := x); auto.
  intros i Hi. apply Hc. unfold changed in Hi. apply existsb_exists in Hi as (y & Hy & E). apply Nat.eqb_eq in E. subst; auto.
Qed.
Print Assumptions C33_unknown.

(** Without close_at, builders number nodes in walk order. *)
Fixpoint zip_ids {T} (fs : list (frame T)) (cur : list (rose T)) : list nat :=
  match fs with
  | [] => map r_id (preorder_list cur)
  | f :: fs => zip_ids fs (f_left f) ++ f_id f :: map r_id (preorder_list cur)
  end.
Lemma zip_snoc T (fs : list (frame T)) cur i k d sp : zip_ids fs (cur ++ [Nd i k d sp []]) = zip_ids fs cur ++ [i].
Proof.
  destruct fs; simpl; unfold preorder_list; rewrite flat_map_app, map_app; simpl; auto. rewrite <- app_assoc. reflexivity.
Qed.
Lemma zip_open T (fs fs' : list (frame T)) cur : map (fun f => (f_id f, f_left f)) fs = map (fun f => (f_id f, f_left f)) fs' ->
  zip_ids fs cur = zip_ids fs' cur.
Proof.
  revert fs' cur. induction fs as [|f fs IH]; intros [|f' fs'] cur E; try discriminate; auto. simpl in *. injection E as -> -> E.
  rewrite (IH fs'); auto.
Qed.
Lemma touch_zip T e (fs : list (frame T)) : map (fun f => (f_id f, f_left f)) (touch e fs) = map (fun f => (f_id f, f_left f)) fs.
Proof. destruct fs; auto. Qed.
Lemma widen_zip T e (fs : list (frame T)) : map (fun f => (f_id f, f_left f)) (widen e fs) = map (fun f => (f_id f, f_left f)) fs.
Proof. destruct fs; auto. Qed.
Definition ordered {T} (a : doc T) : Prop := zip_ids (a_open a) (a_cur a) = seq 0 (a_n a).

Lemma ordered_leaf T d sp (a : doc T) : ordered a -> ordered (a_leaf d sp a).
Proof.
  unfold ordered, a_leaf. cbn [a_cur a_open a_n]. intros H. rewrite (zip_open _ _ (a_open a)) by apply touch_zip.
  rewrite zip_snoc, H, seq_S. auto.
Qed.

Lemma ordered_step T F (a : doc T) o a' r : ordered a -> is_close_at o = false -> a_step F a o = Some (a', r) -> ordered a'.
Proof.
  intros H Hc E.
  assert (HO : forall d sp, ordered (fst (a_open_with F d sp a))).
  { intros d sp. unfold a_open_with. destruct (full F a); auto. unfold ordered. cbn [fst a_cur a_open a_n zip_ids].
    change (map r_id (preorder_list (@nil (rose T)))) with (@nil nat). cbn [f_left f_id].
    rewrite (zip_open _ _ (a_open a)) by apply touch_zip. rewrite H. rewrite seq_S. auto. }
  assert (HT : forall d len, ordered (fst (a_token F d len a))).
  { intros d len. unfold a_token. destruct (len_is_empty F len); [destruct (full F a); auto; apply ordered_leaf; auto|].
    destruct (ix_checked_add_len F (a_cursor a) len) as [c|]; auto. cbv zeta.
    assert (H2 : ordered (stretch c (move c a))) by exact H. destruct (full F a); auto.
    apply (ordered_leaf _ d (Span (a_cursor a) c)) in H2. exact H2. }
  destruct o; simpl in E; try discriminate; injection E as E; try (rewrite <- E in *; fail).
  - specialize (HO d (span_point (a_cursor a))). rewrite E in HO. auto.
  - specialize (HO d sp). rewrite E in HO. auto.
  - unfold a_close in E. destruct (a_open a) as [|f fs] eqn:Eo; injection E as <- <-; auto.
    unfold ordered in *. cbn [a_cur a_open a_n]. rewrite (zip_open _ _ fs) by apply widen_zip. rewrite <- H. rewrite Eo.
    simpl. destruct fs as [|g fs]; simpl; unfold preorder_list; rewrite flat_map_app, map_app; simpl; rewrite ?app_nil_r; auto.
    rewrite <- app_assoc. reflexivity.
  - specialize (HT d len). rewrite E in HT. auto.
  - specialize (HT d 0%N). rewrite E in HT. auto.
  - unfold a_token_with in E. destruct (full F a); injection E as <- <-; auto.
    apply (ordered_leaf _ d sp) in H. unfold ordered in *. cbn [a_cur a_open a_n push_index] in *. rewrite (zip_open _ _ (a_open (a_leaf d sp a))) by apply widen_zip. auto.
  - unfold a_checkpoint in E. destruct (full F a); injection E as <- <-; auto.
  - subst. exact H.
Qed.

Theorem C33_in_order : forall T F (ops : list (op T)) t l, finished F ops t l ->
  forallb (fun o => negb (is_close_at o)) ops = true -> in_order l.
Proof.
  intros T F ops t l (_ & (a & rs & Hd & Ho & <-) & _) Hc.
  assert (G : forall (ops : list (op T)) a0 a rs, ordered a0 -> a_run F a0 ops = Some (a, rs) -> forallb (fun o => negb (is_close_at o)) ops = true -> ordered a).
  { clear. induction ops as [|o ops IH]; intros a0 a rs H E Hc; simpl in *; [injection E as <- _; auto|].
    apply andb_true_iff in Hc as [Hc1 Hc2]. destruct (a_step F a0 o) as [[a1 r]|] eqn:E1; [|discriminate].
    destruct (a_run F a1 ops) as [[a2 rs2]|] eqn:E2; [|discriminate]. injection E as <- _.
    eapply IH; [|exact E2|auto]. eapply ordered_step; eauto. apply negb_true_iff; auto. }
  specialize (G ops doc_new a rs eq_refl Hd Hc). unfold ordered in G. rewrite Ho in G. simpl in G. unfold in_order.
  pose proof (f_equal (@length nat) G) as E. rewrite map_length, seq_length in E. rewrite G, E. auto.
Qed.
Print Assumptions C33_in_order.

(** The full claim is false.  The last child of a node: root{a:1}, remove a: two roots, and a is still there. *)
Definition only_child : list (op nat) := [OOpen 0; OToken 1 1%N; OClose].
Theorem C33_last_refuted : exists t t' n, finished flavor_default only_child t [Nd 0 KOpen 0 (Span 0 1) [Nd 1 KLeaf 1 (Span 0 1) []]] /\
  modify 10 flavor_default (changeset_remove 1 changeset_new) t = Ok t' /\ tree_len t' = 3 /\
  tree_get t' 2 = Some n /\ node_value n = 1.
Proof.
  exists (tree_so_far flavor_default only_child). do 2 eexists. split; [compute_finished|].
  split; [vm_compute; reflexivity|]. split; [vm_compute; reflexivity|]. split; vm_compute; reflexivity.
Qed.
Print Assumptions C33_last_refuted.

(** Two removals: of three roots the first two are removed, but the second stays and the third goes. *)
Definition three_tokens : list (op nat) := [OToken 10 1%N; OToken 11 1%N; OToken 12 1%N].
Theorem C33_two_refuted : exists t t' n, finished flavor_default three_tokens t
    [Nd 0 KLeaf 10 (Span 0 1) []; Nd 1 KLeaf 11 (Span 1 2) []; Nd 2 KLeaf 12 (Span 2 3) []] /\
  modify 10 flavor_default (changeset_remove 1 (changeset_remove 0 changeset_new)) t = Ok t' /\ tree_len t' = 1 /\
  tree_first t' = Some n /\ node_value n = 11.
Proof.
  exists (tree_so_far flavor_default three_tokens). do 2 eexists. split; [compute_finished|].
  split; [vm_compute; reflexivity|]. split; [vm_compute; reflexivity|]. split; vm_compute; reflexivity.
Qed.
Print Assumptions C33_two_refuted.

(** Wrapped documents are not numbered in walk order: w{a, b}, remove a: w goes instead, with everything in it. *)
Definition wrapped_pair : list (op nat) := [OCheckpoint; OToken 10 1%N; OToken 11 1%N; OCloseAt 0 12].
Theorem C33_wrapped_refuted : exists t t', finished flavor_default wrapped_pair t
    [Nd 2 KWrap 12 (Span 0 2) [Nd 0 KLeaf 10 (Span 0 1) []; Nd 1 KLeaf 11 (Span 1 2) []]] /\
  modify 10 flavor_default (changeset_remove 0 changeset_new) t = Ok t' /\ tree_len t' = 0.
Proof.
  exists (tree_so_far flavor_default wrapped_pair). eexists. split; [compute_finished|]. split; vm_compute; reflexivity.
Qed.
Print Assumptions C33_wrapped_refuted.

(** A copy can be equal to the original and still answer range queries differently: modify indexes tokens by their start. *)
Definition copy_ops : list (op nat) := [OOpen 0; OToken 1 3%N; OToken 2 3%N; OClose; OToken 3 1%N].
Definition copy_doc : list (rose nat) :=
  [ Nd 0 KOpen 0 (Span 0 6) [Nd 1 KLeaf 1 (Span 0 3) []; Nd 2 KLeaf 2 (Span 3 6) []]; Nd 3 KLeaf 3 (Span 6 7) [] ].
Theorem C31_modify_refuted : exists t t' n n', plain_run flavor_default copy_ops t copy_doc /\
  modify 10 flavor_default changeset_new t = Ok t' /\ tree_eq flavor_default flavor_default Nat.eqb t' t = Ok true /\
  node_with_range flavor_default std_search t 3 6 = Ok (Some n) /\ node_value n = 0 /\
  node_with_range flavor_default std_search t' 3 6 = Ok (Some n') /\ node_value n' = 3.
Proof.
  exists (tree_so_far flavor_default copy_ops). do 3 eexists. split.
  { split; [discriminate|]. split; [|vm_compute; repeat split; intros; discriminate]. compute_finished. }
  split; [vm_compute; reflexivity|]. split; [vm_compute; reflexivity|]. split; [vm_compute; reflexivity|]. split; [reflexivity|].
  split; vm_compute; reflexivity.
Qed.
Print Assumptions C31_modify_refuted.

(** The hypotheses of C32 and C33 are met: copying this tree, and removing token 1 (which has a later sibling) from it,
    and then root 0 from the result. *)
Lemma copy_plain : plain_run flavor_default copy_ops (tree_so_far flavor_default copy_ops) copy_doc.
Proof. split; [discriminate|]. split; [|vm_compute; repeat split; intros; discriminate]. compute_finished. Qed.
Example C32_inhabited : exists t t', plain_run flavor_default copy_ops t copy_doc /\ Forall (op_wf flavor_default) copy_ops /\
  length (preorder_list copy_doc) + 2 <= 10 /\ flat_ends copy_doc /\ ~ flat_ends [Nd 0 KOpen 0 (Span 0 1) [Nd 1 KOpen 1 (Span 0 1) [Nd 2 KLeaf 2 (Span 0 1) []]]] /\
  modify 10 flavor_default changeset_new t = Ok t' /\ tree_eq flavor_default flavor_default Nat.eqb t' t = Ok true.
Proof.
  exists (tree_so_far flavor_default copy_ops). eexists. split; [apply copy_plain|]. split; [repeat constructor; discriminate|]. split; [simpl; lia|].
  split.
  { intros x y Hx Hy. left. repeat destruct Hx as [<-|Hx]; try contradiction; simpl in Hy; try discriminate. injection Hy as <-. reflexivity. }
  split.
  { intros H. destruct (H _ (Nd 1 KOpen 1 (Span 0 1) [Nd 2 KLeaf 2 (Span 0 1) []]) (or_introl eq_refl) eq_refl); discriminate. }
  split; [vm_compute; reflexivity|]. vm_compute; reflexivity.
Qed.
Example C33_inhabited : exists t t' l' t2 n, made flavor_default t copy_doc /\ fits flavor_default t /\ in_order copy_doc /\
  (total_width copy_doc <= ix_max flavor_default)%N /\ has_successor 1 copy_doc /\
  modify 10 flavor_default (changeset_remove 1 changeset_new) t = Ok t' /\ made flavor_default t' l' /\ tree_len t' = 3 /\
  has_successor 0 l' /\
  modify 10 flavor_default (changeset_remove 0 changeset_new) t' = Ok t2 /\ tree_len t2 = 1 /\ tree_first t2 = Some n /\ node_value n = 3.
Proof.
  assert (Hm : made flavor_default (tree_so_far flavor_default copy_ops) copy_doc).
  { apply (made_finished flavor_default copy_ops). exact (proj1 (proj2 copy_plain)). repeat constructor; discriminate. }
  exists (tree_so_far flavor_default copy_ops). do 4 eexists. split; [exact Hm|]. split; [vm_compute; reflexivity|]. split; [reflexivity|].
  split; [vm_compute; discriminate|]. split.
  { exists (Some (Nd 0 KOpen 0 (Span 0 6) [Nd 1 KLeaf 1 (Span 0 3) []; Nd 2 KLeaf 2 (Span 3 6) []])), [], (Nd 1 KLeaf 1 (Span 0 3) []), [Nd 2 KLeaf 2 (Span 3 6) []].
    split; [right; left; reflexivity|]. split; [reflexivity|]. right. discriminate. }
  split; [vm_compute; reflexivity|]. split.
  { eapply (made_modified _ 10 [1]).
    - exact Hm.
    - intros i [<-|[]]. vm_compute. reflexivity.
    - eapply ed_node; [right; reflexivity| |].
      + apply ed_skip; [reflexivity|]. apply ed_leaf; [left; reflexivity|]. apply ed_nil.
      + apply ed_leaf; [right; reflexivity|]. apply ed_nil.
    - vm_compute; reflexivity. }
  split; [reflexivity|]. split.
  { eexists None, [], _, _. split; [left; reflexivity|]. split; [reflexivity|auto]. }
  split; [vm_compute; reflexivity|]. split; [reflexivity|]. split; reflexivity.
Qed.
