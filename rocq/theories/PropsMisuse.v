(** Property theorems: trees of any history of calls, checkpoints misused or not (C64). *)
From Coq Require Import Lia Permutation.
From Verif Require Import Base Pointer Index Tree Builder Hist Node Iter Query Edit Spec SpecSpan SpecMap SpecEdit SpecReads Rep Marks Refine TreeRep
  Enum Walk WalkTree WalkThms Nav Bounds AllHist AllWalk StepFacts AllPlaced PropsTree PropsSpan PropsSafe PropsEmpty Modify Replaced Copy Demo PropsEdit AllReads.
Open Scope nat_scope.

(** ** C64 *)

(** Whatever was called: through [first] and [next] a finite document is read, and only one; every node of
    the tree is in it, once. *)
Theorem C64_reaches : forall T F (ops : list (op T)) (t : tree T), vec_flavor F -> builds F ops t ->
  exists l, reads t (tree_first t) l /\
    forall l', reads t (tree_first t) l' -> Permutation (map r_id (preorder_list l')) (seq 0 (tree_len t)).
Proof. intros T F ops t HF Hb. rewrite (builds_so_far _ _ _ _ Hb). apply history_reads; auto. Qed.
Print Assumptions C64_reaches.

(** Two readings of a tree are the same, except for what a tree does not tell. *)
Theorem C64_one : forall T (t : tree T) o l l', reads t o l -> reads t o l' -> same_reading l l'.
Proof.
  intros T t o l l' H. revert l'. induction H as [|n k kids rest H0 H1 IH1 H2 IH2]; intros l' H'; inversion H'; subst; constructor; auto.
Qed.
Print Assumptions C64_one.

(** When no checkpoint is misused, this is the document: also after changes. *)
Lemma tree_rep_reads T (t : tree T) l : tree_rep t l -> reads t (tree_first t) l.
Proof.
  intros Hr. pose proof (rep_source T t l Hr) as [L0 LS].
  enough (G : forall w p s o, In (p, s) (sibling_lists l) -> forall s1 s2, s = s1 ++ s2 -> length (preorder_list s2) <= w -> leads t o s2 -> reads t o s2).
  { apply (G _ None l _ (or_introl eq_refl) [] l eq_refl (le_n _) L0). }
  induction w as [|w IH]; intros p s o Hs s1 s2 E Hw Hl.
  - destruct s2 as [|[? ? ? ? ?] ?]; [simpl in Hl; subst; constructor|rewrite pre_len in Hw; lia].
  - destruct s2 as [|x s2]; [simpl in Hl; subst; constructor|]. destruct Hl as (m & -> & Hm).
    rewrite E in Hs. destruct (LS p s1 x s2 m Hs Hm) as (V & S & Hc & Ln & Lf).
    destruct x as [i k d sp kids]. rewrite pre_len in Hw. simpl in V, S, Ln, Lf. subst d sp.
    assert (Ei : i = fst m).
    { unfold isnode, tree_get, node_at in Hm. simpl in Hm. destruct (nth_error (t_nodes t) i); [|discriminate]. injection Hm as <-. auto. }
    subst i. constructor; [exact Hc| |].
    + apply (IH (Some (Nd (fst m) k (node_value m) (node_span m) kids)) kids _) with (s1 := []); auto; [|lia].
      right. change kids with (r_kids (Nd (fst m) k (node_value m) (node_span m) kids)) at 2.
      apply in_map_iff. eexists. split; [reflexivity|]. eapply sibling_list_in; [exact Hs|]. apply in_or_app. right. left. auto.
    + apply (IH p (s1 ++ Nd (fst m) k (node_value m) (node_span m) kids :: s2) _ Hs (s1 ++ [Nd (fst m) k (node_value m) (node_span m) kids])); [rewrite <- app_assoc; auto|lia|auto].
Qed.
Theorem C64_agrees : forall T F (t : tree T) l, made F t l -> reads t (tree_first t) l /\ obtained F t l.
Proof.
  intros T F t l H. split; [apply tree_rep_reads; apply (made_facts T F t l H)|].
  induction H as [ops t l HF Hd Hb Hw|fuel c t l t' l' n s Hm IH Hp He E|t l i n v t' old Hm IH Hn E].
  - apply (ob_built F ops); auto. apply tree_rep_reads. eapply built_rep; eauto.
  - eapply ob_modified; eauto.
  - eapply ob_replaced; eauto.
Qed.
Print Assumptions C64_agrees.

Lemma built_zero T F (ops : list (op T)) t l : Forall (op_wf F) ops -> builds F ops t -> reads t (tree_first t) l -> zero_spans F l.
Proof.
  intros Hw Hb H HI x Hx. assert (Hr : real t (tree_first t)) by apply real_opt.
  destruct (reads_in _ _ _ _ H Hr x Hx) as (n & k & kids & En & -> & _). simpl.
  rewrite (builds_so_far _ _ _ _ Hb) in En. apply (C37_positions T F ops HI Hw) in En. tauto.
Qed.

(** [replace]: the same reading, with the one value changed. *)
Section Replace.
Context {T : Type}.
Variables (t : tree T) (i : nat) (v : T).
Let ns' := upd (t_nodes t) i (set_l_data v).
Definition changed_node (n : node T) : node T := if Nat.eqb (fst n) i then (fst n, set_l_data v (snd n)) else n.
Lemma changed_at j : node_at ns' j = option_map changed_node (node_at (t_nodes t) j).
Proof.
  unfold node_at, ns', changed_node. rewrite nth_upd. destruct (Nat.eqb_spec i j) as [<-|H]; destruct (nth_error (t_nodes t) _); simpl; auto.
  - rewrite Nat.eqb_refl. auto.
  - destruct (Nat.eqb_spec j i); [congruence|auto].
Qed.
Lemma changed_opt o : node_opt ns' o = option_map changed_node (node_opt (t_nodes t) o).
Proof. destruct o; simpl; auto. apply changed_at. Qed.
Lemma replace_reads o l : reads t o l -> reads (set_t_nodes ns' t) (option_map changed_node o) (map (set_value i v) l).
Proof.
  induction 1 as [|n k kids rest H0 H1 IH1 H2 IH2]; simpl; [constructor|].
  replace (set_value i v (Nd (fst n) k (node_value n) (node_span n) kids))
    with (Nd (fst (changed_node n)) k (node_value (changed_node n)) (node_span (changed_node n)) (map (set_value i v) kids)).
  2:{ unfold changed_node, set_value. cbn [relabel]. destruct (Nat.eqb (fst n) i); auto. }
  constructor.
  - unfold changed_node. destruct (Nat.eqb (fst n) i); unfold has_children in *; cbn [snd set_l_data l_first] in *; rewrite H0; destruct kids; auto.
  - replace (node_first (t_nodes (set_t_nodes ns' t)) (changed_node n)) with (option_map changed_node (node_first (t_nodes t) n)); auto.
    unfold node_first. cbn [set_t_nodes t_nodes]. rewrite changed_opt. unfold changed_node at 3. destruct (Nat.eqb (fst n) i); auto.
  - replace (node_next (t_nodes (set_t_nodes ns' t)) (changed_node n)) with (option_map changed_node (node_next (t_nodes t) n)); auto.
    unfold node_next. cbn [set_t_nodes t_nodes]. rewrite changed_opt. unfold changed_node at 3. destruct (Nat.eqb (fst n) i); auto.
Qed.
End Replace.

Lemma obtained_facts T F (t : tree T) l : obtained F t l ->
  vec_flavor F /\ reads t (tree_first t) l /\ zero_spans F l /\
  Permutation (map r_id (preorder_list l)) (seq 0 (tree_len t)) /\
  (N.of_nat (tree_len t) <= int_max F (fl_width F))%N.
Proof.
  induction 1 as [ops t l HF Hw Hb Hl|fuel c t l t' l' n s Hm (HF & Hl & Hz & Hp & Hn) Hpt He E|t l i n v t' old Hm (HF & Hl & Hz & Hp & Hn) Hi E].
  - split; auto. split; auto. split; [eapply built_zero; eauto|]. pose proof (builds_so_far _ _ _ _ Hb) as Et.
    split; [destruct (C64_reaches T F ops t HF Hb) as (_ & _ & G); auto|]. rewrite Et. apply C12_size; auto.
  - split; auto. pose proof (modify_source T F t l c HF (reads_source _ _ _ Hl) Hz (pointers_hits F c Hpt) l' n s He) as [[B G]|[B G]].
    + destruct (G (S n) (le_n _)) as (t2 & E2 & _ & R & _).
      assert (t2 = t') as ->.
      { assert (A : modify (fuel + S (S n)) F c t = Ok t') by (apply modify_more; auto; discriminate).
        assert (A2 : modify (S (S n) + fuel) F c t = Ok t2) by (apply modify_more; auto; discriminate).
        rewrite Nat.add_comm in A. congruence. }
      split; [apply tree_rep_reads; auto|]. split; [intros HI; eapply edited_zero; eauto|].
      split; [rewrite <- ids_l_preorder; apply (tr_perm _ _ R)|]. pose proof (edited_size _ _ _ _ _ _ _ _ _ _ _ He). destruct B.
      pose proof (tr_length _ _ R) as Es. unfold size_l in Es. unfold tree_len. rewrite Es. simpl in H. subst n. auto.
    + exfalso. specialize (G (S n) (le_n _)).
      assert (A : modify (fuel + S (S n)) F c t = Ok t') by (apply modify_more; auto; discriminate).
      assert (A2 : modify (S (S n) + fuel) F c t = Err Overflow) by (apply modify_more; auto; discriminate).
      rewrite Nat.add_comm in A. congruence.
  - split; auto. unfold tree_replace, node_replace in E. injection E as <- _.
    assert (Ei : fst n = i) by (unfold tree_get, node_at in Hi; destruct (nth_error (t_nodes t) i); [|discriminate]; injection Hi as <-; auto).
    rewrite Ei. split; [|split; [apply replaced_zero; auto|]].
    + unfold tree_first. cbn [set_t_nodes t_nodes t_first]. rewrite changed_opt. apply replace_reads. exact Hl.
    + rewrite sv_preorder_list, map_map. unfold tree_len in *. cbn [set_t_nodes t_nodes]. rewrite length_upd. split; auto.
      erewrite map_ext; [exact Hp|]. intros x. apply sv_id.
Qed.

(** Also after changes: what is read has every node once, and each answers as the document says. *)
Theorem C64_obtained : forall T F (t : tree T) l, obtained F t l ->
  reads t (tree_first t) l /\ Permutation (map r_id (preorder_list l)) (seq 0 (tree_len t)) /\
  forall x, In x (preorder_list l) -> exists n, tree_get t (r_id x) = Some n /\
    node_value n = r_data x /\ node_span n = r_span x /\ has_children n = has_kids x.
Proof.
  intros T F t l H. destruct (obtained_facts T F t l H) as (_ & Hl & _ & Hp & _). split; auto. split; auto.
  intros x Hx. assert (Hr : real t (tree_first t)) by apply real_opt.
  destruct (reads_in _ _ _ _ Hl Hr x Hx) as (n & k & kids & En & -> & Hc & _). exists n. auto.
Qed.
Print Assumptions C64_obtained.

(** The change sets work on it as on any other tree: the outcome is what [edited] says of the
    document that is read. *)
Theorem C64_modify : forall T F (t : tree T) l c, obtained F t l -> pointers F c ->
  exists l' n s, edited c true false 0 0 l l' n s false /\ n = length (preorder_list l') /\ in_order l' /\
  forall fuel, n + 2 <= fuel ->
    ((N.of_nat n <= int_max F (fl_width F))%N /\ (s <= ix_max F)%N ->
       exists t', modify fuel F c t = Ok t' /\ obtained F t' l' /\ t_span t' = Span 0 s /\ (fits F t' -> presents F t' l')) /\
    (~ ((N.of_nat n <= int_max F (fl_width F))%N /\ (s <= ix_max F)%N) -> modify fuel F c t = Err Overflow).
Proof.
  intros T F t l c Ho Hp. pose proof (pointers_hits F c Hp) as Hh. destruct (obtained_facts T F t l Ho) as (HF & Hl & Hz & _).
  pose proof (reads_source T t l Hl) as Hr.
  destruct (edited_total T c (S (fold_right max 0 c))) with (w := S (fold_right max 0 c)) (top := true) (forced := false) (n := 0) (s := 0%N) (xs := l)
    as (l' & n & s & up & He).
  { intros i Hi. apply existsb_exists in Hi as (y & Hy & E). apply Nat.eqb_eq in E. subst y.
    clear -Hy. induction c; simpl in *; [tauto|]. destruct Hy as [->|Hy]; [lia|]. specialize (IHc Hy). lia. }
  { lia. }
  destruct up. { destruct (edited_up _ _ _ _ _ _ _ _ _ _ _ He eq_refl). discriminate. }
  exists l', n, s. split; auto. split; [apply (edited_size _ _ _ _ _ _ _ _ _ _ _ He)|]. split; [apply (edited_numbered _ _ _ _ _ _ _ _ _ _ _ He)|].
  intros fuel Hfu. destruct fuel as [|fuel]; [lia|].
  destruct (modify_source T F t l c HF Hr Hz Hh l' n s He) as [[B G]|[B G]]; specialize (G fuel ltac:(lia)); unfold bound in B; (split; [intros B'|intros B']); try tauto.
  destruct G as (t' & E & S & R & _). exists t'. split; auto. split; [eapply ob_modified; eauto|]. split; auto. intros Hf.
  apply rep_presents; auto. eapply edited_kinds; eauto.
Qed.
Print Assumptions C64_modify.

(** With no changes it makes a tree in which everything agrees again (see [presents]: the walk, the
    parents, both ends): the document that is read, the same number of nodes, the same values. *)
Theorem C64_copy : forall T F (t : tree T) l fuel, obtained F t l ->
  fits F t -> (total_width l <= ix_max F)%N -> tree_len t + 2 <= fuel ->
  exists t' l', modify fuel F changeset_new t = Ok t' /\ tree_len t' = tree_len t /\ presents F t' l' /\ in_order l' /\
    copied_list 0 l l' (total_width l) /\ t_span t' = Span 0 (total_width l).
Proof.
  intros T F t l fuel Ho Hfit Hs Hfu. destruct (obtained_facts T F t l Ho) as (HF & Hl & Hz & Hperm & Hmax).
  assert (El : length (preorder_list l) = tree_len t).
  { apply Permutation_length in Hperm. rewrite map_length, seq_length in Hperm. auto. }
  destruct (edited_copy T [] _ l (le_n _) true false 0 0%N) as (l' & He & Hc); [auto|].
  simpl plus in *. rewrite N.add_0_l in *. destruct fuel as [|fuel]; [lia|].
  assert (Hp : pointers F []) by (intros i []).
  pose proof (edited_size _ _ _ _ _ _ _ _ _ _ _ He) as Es.
  destruct (modify_source T F t l [] HF (reads_source T t l Hl) Hz (pointers_hits F [] Hp) l' _ _ He) as [[B G]|[B G]].
  - destruct (G fuel ltac:(lia)) as (t' & E & S & R & _). exists t', l'. split; auto.
    pose proof (tr_length _ _ R) as E'. unfold size_l in E'.
    assert (Et : tree_len t' = tree_len t) by (unfold tree_len in *; lia). split; auto.
    split; [|split; [apply (edited_numbered _ _ _ _ _ _ _ _ _ _ _ He)|auto]].
    apply rep_presents; auto; [|eapply edited_kinds; eauto]. unfold fits, tree_len in *. rewrite Et. auto.
  - exfalso. apply B. split; auto. rewrite El. auto.
Qed.
Print Assumptions C64_copy.

(** The walk is another matter: with a misused checkpoint it can miss nodes (here one of six, while a change
    set without changes brings it back). *)
Definition missed_ops : list (op nat) :=
  [OCheckpoint; OToken 2 1; OCheckpoint; OToken 3 1; OCloseAt 0 10; OToken 4 1; OCloseAt 1 11; OToken 5 1].
Fixpoint read {T} (fuel : nat) (t : tree T) (o : option (node T)) : option (list (rose T)) :=
  match fuel with
  | O => None
  | S fuel => match o with
    | None => Some []
    | Some n => match read fuel t (node_first (t_nodes t) n), read fuel t (node_next (t_nodes t) n) with
      | Some kids, Some rest =>
          if Bool.eqb (has_children n) (match kids with [] => false | _ => true end)
          then Some (Nd (fst n) KLeaf (node_value n) (node_span n) kids :: rest) else None
      | _, _ => None
      end
    end
  end.
Lemma read_reads T fuel (t : tree T) : forall o l, read fuel t o = Some l -> reads t o l.
Proof.
  induction fuel as [|fuel IH]; intros o l E; [discriminate|]. simpl in E. destruct o as [n|]; [|injection E as <-; constructor].
  destruct (read fuel t (node_first (t_nodes t) n)) as [kids|] eqn:E1; [|discriminate].
  destruct (read fuel t (node_next (t_nodes t) n)) as [rest|] eqn:E2; [|discriminate].
  destruct (Bool.eqb (has_children n) _) eqn:Ec in E; [|discriminate]. injection E as <-. apply Bool.eqb_prop in Ec. constructor; auto.
Qed.
Definition missed_doc : list (rose nat) :=
  [Nd 2 KLeaf 10 (Span 0 2)
     [Nd 0 KLeaf 2 (Span 0 1) []; Nd 4 KLeaf 11 (Span 1 2) [Nd 1 KLeaf 3 (Span 1 2) []]; Nd 5 KLeaf 5 (Span 3 4) []];
   Nd 3 KLeaf 4 (Span 2 3) []].
Lemma missed_obtained : obtained flavor_default (tree_so_far flavor_default missed_ops) missed_doc.
Proof.
  apply (ob_built flavor_default missed_ops).
  - split; auto.
  - repeat constructor; simpl; try lia; vm_compute; discriminate.
  - vm_compute. reflexivity.
  - apply (read_reads _ 10). vm_compute. reflexivity.
Qed.
Theorem C64_walk_refuted : exists (t : tree nat) l items, obtained flavor_default t l /\
  enumerates (walk_next flavor_default (t_nodes t)) (tree_walk t) items /\
  map fst items = [2; 0; 4; 1; 5] /\ map r_id (preorder_list l) = [2; 0; 4; 1; 5; 3].
Proof.
  exists (tree_so_far flavor_default missed_ops), missed_doc. eexists. split; [apply missed_obtained|]. split; [|split; [|reflexivity]].
  - do 5 (apply enumerates_cons; eexists; split; [vm_compute; reflexivity|]).
    match goal with |- enumerates _ ?s _ => apply (enumerates_stuck _ (fun x => x = s)); auto end.
    intros ? ->. eexists. split; [vm_compute; reflexivity|reflexivity].
  - reflexivity.
Qed.
Print Assumptions C64_walk_refuted.

(** ... and a node may deny the parent among whose children it is found: the last token here is read as a child
    of 10 and answers that it has no parent; modify with no changes gives it that parent. *)
Definition orphan_ops : list (op nat) :=
  [OCheckpoint; OToken 1 1; OCheckpoint; OToken 2 1; OCloseAt 0 10; OCloseAt 1 11; OToken 3 1].
Theorem C64_parent_refuted : exists (t t' : tree nat) l l' k sp kids n n', obtained flavor_default t l /\
  l = [Nd 2 k 10 sp kids] /\ In 4 (map r_id kids) /\ tree_get t 4 = Some n /\ node_parent (t_nodes t) n = None /\
  modify 7 flavor_default changeset_new t = Ok t' /\ presents flavor_default t' l' /\
  tree_get t' 4 = Some n' /\ node_value n' = node_value n /\ option_map node_value (node_parent (t_nodes t') n') = Some 10.
Proof.
  set (t := tree_so_far flavor_default orphan_ops).
  assert (Ho : exists l, read 10 t (tree_first t) = Some l) by (eexists; vm_compute; reflexivity). destruct Ho as (l & El).
  assert (Ho : obtained flavor_default t l).
  { apply (ob_built flavor_default orphan_ops).
    - split; auto.
    - repeat constructor; simpl; try lia; vm_compute; discriminate.
    - vm_compute. reflexivity.
    - apply (read_reads _ 10). auto. }
  destruct (C64_copy nat flavor_default t l 7 Ho) as (t' & l' & E & _ & P & _).
  { vm_compute. reflexivity. }
  { vm_compute in El. injection El as <-. vm_compute. discriminate. }
  { vm_compute. lia. }
  assert (Hn : option_map (fun n => (node_value n, node_parent (t_nodes t) n)) (tree_get t 4) = Some (3, None)) by (vm_compute; reflexivity).
  assert (Hn' : option_map (fun n => (node_value n, option_map node_value (node_parent (t_nodes t') n))) (tree_get t' 4) = Some (3, Some 10)).
  { vm_compute in E. injection E as <-. vm_compute. reflexivity. }
  assert (Hl : exists k sp kids, l = [Nd 2 k 10 sp kids] /\ In 4 (map r_id kids)).
  { vm_compute in El. injection El as <-. do 3 eexists. split; [reflexivity|simpl; tauto]. }
  clear El. clearbody t. destruct (tree_get t 4) as [n|] eqn:En; [|discriminate]. destruct (tree_get t' 4) as [n'|] eqn:En'; [|discriminate].
  injection Hn as Hv Hpar. injection Hn' as Hv' Hpar'.
  destruct Hl as (k & sp & kids & Hl & Hin). exists t, t', l, l', k, sp, kids, n, n'.
  repeat (split; [first [assumption|congruence]|]). exact Hpar'.
Qed.
Print Assumptions C64_parent_refuted.

(** ** Hypotheses can be met *)
Example C64_inhabited : exists (t t' : tree nat) l l', obtained flavor_default t l /\ obtained flavor_default t' l' /\
  pointers flavor_default [3] /\ modify 20 flavor_default (changeset_remove 3 changeset_new) t = Ok t' /\
  map r_data (preorder_list l) = [10; 2; 11; 3; 5; 4] /\ map l_data (t_nodes t') = [10; 2; 11; 11; 3; 5; 4].
Proof.
  exists (tree_so_far flavor_default missed_ops). assert (Hp : pointers flavor_default [3]) by (intros i [<-|[]]; vm_compute; reflexivity).
  destruct (C64_modify nat flavor_default _ _ [3] missed_obtained Hp) as (l' & n & s & He & Hn & _ & G).
  assert (E : exists t', modify 20 flavor_default [3] (tree_so_far flavor_default missed_ops) = Ok t') by (eexists; vm_compute; reflexivity).
  destruct E as (t' & E). exists t', missed_doc, l'. split; [apply missed_obtained|]. split; [eapply ob_modified; eauto; apply missed_obtained|].
  split; auto. split; [exact E|]. split; [reflexivity|]. vm_compute in E. injection E as <-. reflexivity.
Qed.
