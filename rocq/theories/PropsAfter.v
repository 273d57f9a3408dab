(** Property theorems: trees of any history of calls, after any number of calls of [modify] and [replace] (C71). *)
From Coq Require Import Lia Permutation.
From Verif Require Import Base Pointer Index Tree Builder Hist Node Iter Query Edit Print Spec SpecSpan SpecMap SpecEdit SpecReads SpecModified SpecEq SpecTour SpecShown SpecAfter
  Rep Marks Refine TreeRep Enum Walk WalkTree WalkGen WalkThms Nav Bounds AllHist AllWalk PropsTree PropsFused PropsEq PropsDebug PropsSafe Relabel Modify Replaced PropsEdit PropsReplace AllReads
  PropsMisuse PropsModified Demo PropsTour PropsShown After.
Open Scope nat_scope.

(** ** C71 *)

(** [modify] depends on nothing but what is read through [first] and [next]: values, nesting, and the spans of the nodes without children.
    Identifiers, other links and the spans of nodes with children do not matter, and any two trees may be compared. *)
Theorem C71_modify_reads : forall T F c fuel (t u : tree T) l k, reads t (tree_first t) l -> reads u (tree_first u) k -> look_alike l k ->
  modify fuel F c t = modify fuel F c u.
Proof. apply modify_sees. Qed.
Print Assumptions C71_modify_reads.

Lemma built_wf T F (ops : list (op T)) t l : Forall (op_wf F) ops -> builds F ops t -> reads t (tree_first t) l -> forall x, In x (preorder_list l) -> span_wf F (r_span x).
Proof.
  intros Hw Hb H x Hx. assert (Hr : real t (tree_first t)) by apply real_opt.
  destruct (reads_in _ _ _ _ H Hr x Hx) as (n & k & kids & En & -> & _). cbn [r_span].
  rewrite (builds_so_far _ _ _ _ Hb) in En. destruct (C35_in_range T F ops Hw) as (_ & _ & G). apply (G _ _ En).
Qed.

(** Whatever was called: there are calls of [open], [token_with] and [close] alone whose tree reads the same, and every [modify] of the two
    gives the same tree, or the same error. *)
Theorem C71_proper : forall T F (ops : list (op T)) t l, vec_flavor F -> Forall (op_wf F) ops -> builds F ops t -> reads t (tree_first t) l ->
  exists ops' u k, Forall plain_call ops' /\ Forall (op_wf F) ops' /\ builds F ops' u /\ document F ops' k /\ look_alike l k /\
    forall fuel c, modify fuel F c t = modify fuel F c u.
Proof.
  intros T F ops t l HF Hw Hb Hl. assert (Ho : obtained F t l) by (eapply ob_built; eauto). destruct (obtained_facts T F t l Ho) as (_ & _ & _ & Hp & Hn).
  apply Permutation_length in Hp. rewrite map_length, seq_length in Hp.
  destruct (proper_history T F l HF ltac:(rewrite Hp; auto) (built_wf T F ops t l Hw Hb Hl)) as (ops' & u & k & A & B & C & D & E & _).
  exists ops', u, k. split; auto. split; auto. split; auto. split; auto. split; auto. intros fuel c.
  eapply modify_sees; eauto. apply tree_rep_reads. eapply built_rep; eauto.
Qed.
Print Assumptions C71_proper.

(** [replace] in the tree of any history gives the tree of a history that differs in a value. *)
Theorem C71_replace : forall T F (ops : list (op T)) t i n v t' old, vec_flavor F -> builds F ops t ->
  tree_get t i = Some n -> tree_replace t n v = (t', old) -> exists ops', Forall2 same_call ops ops' /\ builds F ops' t'.
Proof.
  intros T F ops t i n v t' old HF Hb Hn E. set (g := fun (j : nat) (d : T) => if Nat.eqb j i then v else d).
  exists (op_relabel g 0 ops (run_outs F ops)). assert (El : length (run_outs F ops) = length ops) by apply run_length.
  assert (Hs := rl_same g ops 0 (run_outs F ops) El). split; auto.
  destruct (tree_relabel F g HF ops _ Hs) as (_ & Et & Ep). { apply rl_inserted. apply valued_run. }
  assert (X : t' = tree_map g t).
  { unfold tree_replace, node_replace in E. injection E as <- _.
    assert (Ei : fst n = i) by (unfold tree_get, node_at in Hn; destruct (nth_error (t_nodes t) i); [|discriminate]; injection Hn as <-; auto).
    rewrite Ei. unfold tree_map, set_t_nodes. f_equal. unfold table_map. symmetry. exact (table_set T i v (t_nodes t) 0). }
  rewrite X. unfold builds, build in *. unfold tree_so_far in Et. rewrite Ep, Et.
  destruct (b_parent (w_builder (run_world F ops))); [discriminate|]. injection Hb as <-. auto.
Qed.
Print Assumptions C71_replace.
Lemma same_call_wf T F (ops qs : list (op T)) : Forall2 same_call ops qs -> Forall (op_wf F) ops -> Forall (op_wf F) qs.
Proof. induction 1 as [|o q ops qs Ho Hs IH]; intros H; inversion H; subst; constructor; auto. destruct Ho; auto. Qed.

(** Every tree that is obtained, in any way, either comes from some calls of a builder directly, or is a modified tree of the proper kind (C58). *)
Theorem C71_either : forall T F (t : tree T) l, obtained F t l ->
  vec_flavor F /\ reads t (tree_first t) l /\
  ((exists ops, Forall (op_wf F) ops /\ builds F ops t) \/ modified F t l).
Proof.
  intros T F t l Ho. destruct (obtained_facts T F t l Ho) as (HF & Hl & _). split; auto. split; auto. clear HF Hl.
  induction Ho as [ops t l HF Hw Hb Hl|fuel c t l t' l' n s Hm IH Hpt He E|t l i n v t' old Hm IH Hi E].
  - left. eauto.
  - right. destruct IH as [(ops & Hw & Hb)|M].
    + destruct (obtained_facts T F t l Hm) as (HF & Hl & _ & Hp & Hn). apply Permutation_length in Hp. rewrite map_length, seq_length in Hp.
      destruct (proper_history T F l HF ltac:(rewrite Hp; auto) (built_wf T F ops t l Hw Hb Hl)) as (ops' & u & k & A & B & C & D & L & _).
      assert (M : made F u k) by (apply (made_built F ops'); auto).
      apply (modified_now F fuel c u k n s t' l' M Hpt); [eapply edited_sees; eauto|]. rewrite <- E. symmetry. eapply modify_sees; eauto.
      apply tree_rep_reads. eapply built_rep; eauto.
    + eapply modified_now; eauto. apply (mod_facts T F t l M).
  - destruct IH as [(ops & Hw & Hb)|M].
    + left. destruct (obtained_facts T F t l Hm) as (HF & _). destruct (C71_replace T F ops t i n v t' old HF Hb Hi E) as (qs & Hq & Hb'). exists qs. split; auto. eapply same_call_wf; eauto.
    + right. eapply modified_replaced; eauto.
Qed.
Print Assumptions C71_either.

(** ** Links, termination *)
Lemma mod_order T F (t : tree T) l : modified F t l -> in_order l.
Proof.
  induction 1 as [fuel c t0 l0 n s t l Hm Hp He E|t l i n v t' old M IH Hn E]; [|apply replaced_order; auto].
  apply (edited_numbered _ _ _ _ _ _ _ _ _ _ _ He).
Qed.
Lemma mod_twin T F (t : tree T) l : modified F t l -> exists ops u, Forall plain_call ops /\ Forall (op_wf F) ops /\ builds F ops u /\
  same_ptrs (t_nodes u) (t_nodes t) /\ t_first t = t_first u /\ t_last t = t_last u.
Proof.
  intros M. destruct (mod_facts T F t l M) as (Hm & R & K). destruct (made_facts T F t l Hm) as (HF & _ & _ & Hn). pose proof (mod_order T F t l M) as Ho.
  destruct (proper_history T F (map blank l) HF) as (ops & u & k & A & B & C & D & L & I1 & I2).
  - rewrite blank_pre_list, map_length. auto.
  - intros x Hx. rewrite blank_pre_list in Hx. apply in_map_iff in Hx as ([i kd d sp kids] & <- & _). split; simpl; lia.
  - exists ops, u. split; auto. split; auto. split; auto. assert (Ru : tree_rep u k) by (eapply built_rep; eauto).
    apply (twins_ptrs T t u l k R Ru). apply (alike_twins T (size_l l)); auto. rewrite I1, Ho. f_equal.
    assert (E : length (preorder_list (map blank l)) = length (preorder_list k)).
    { clear -L. induction L as [|i i' kd kd' d sp rest rest' _ IH|i i' kd kd' d sp sp' y y' kids kids' rest rest' _ IH1 _ IH2]; auto.
      - change (preorder_list (Nd i kd d sp [] :: rest)) with (Nd i kd d sp [] :: preorder_list rest). change (preorder_list (Nd i' kd' d sp [] :: rest')) with (Nd i' kd' d sp [] :: preorder_list rest').
        cbn [length]. auto.
      - change (preorder_list (Nd i kd d sp (y :: kids) :: rest)) with (Nd i kd d sp (y :: kids) :: preorder_list (y :: kids) ++ preorder_list rest).
        change (preorder_list (Nd i' kd' d sp' (y' :: kids') :: rest')) with (Nd i' kd' d sp' (y' :: kids') :: preorder_list (y' :: kids') ++ preorder_list rest').
        cbn [length]. rewrite !app_length, IH1, IH2. auto. }
    rewrite blank_pre_list, map_length in E. rewrite E. unfold tree_len. pose proof (tr_length _ _ Ru) as Er. unfold size_l in Er. auto.
Qed.
Lemma ptrs_links T (t u : tree T) : same_ptrs (t_nodes u) (t_nodes t) -> t_first t = t_first u -> t_last t = t_last u -> same_links t u.
Proof.
  intros [El H] Ef Ea. assert (No : forall o, same_node (node_opt (t_nodes t) o) (node_opt (t_nodes u) o)).
  { intros [i|]; [|reflexivity]. unfold same_node, node_opt, node_at. destruct (nth_error (t_nodes t) i) eqn:E1, (nth_error (t_nodes u) i) eqn:E2; auto.
    - apply nth_error_None in E2. assert (i < length (t_nodes t)) by (apply nth_error_Some; congruence). lia.
    - apply nth_error_None in E1. assert (i < length (t_nodes u)) by (apply nth_error_Some; congruence). lia. }
  split; [exact El|]. split; [unfold tree_first; rewrite Ef; apply No|]. split; [unfold tree_last; rewrite Ea; apply No|].
  intros i n m En Em. unfold tree_get, node_at in En, Em. destruct (nth_error (t_nodes t) i) as [a|] eqn:Ea1; [|discriminate]. destruct (nth_error (t_nodes u) i) as [b|] eqn:Eb; [|discriminate].
  injection En as <-. injection Em as <-. destruct (H i a Ea1) as (b' & Eb' & P). rewrite Eb in Eb'. injection Eb' as <-. destruct P as (P1 & P2 & P3 & P4 & P5).
  unfold node_parent, node_prev, node_next, node_first, node_last, has_children. cbn [snd]. rewrite P1, P2, P3, P4, P5. repeat split; apply No.
Qed.

(** The links of every tree, however it was obtained, are those of a tree that came from a builder. *)
Theorem C71_shape : forall T F (t : tree T) l, obtained F t l -> exists (ops : list (op T)) u, Forall (op_wf F) ops /\ builds F ops u /\ same_links t u.
Proof.
  intros T F t l Ho. destruct (C71_either T F t l Ho) as (HF & _ & [(ops & Hw & Hb)|M]).
  - exists ops, t. split; auto. split; auto. apply ptrs_links; auto. apply same_ptrs_refl.
  - destruct (mod_twin T F t l M) as (ops & u & _ & Hw & Hb & S & E1 & E2). exists ops, u. split; auto. split; auto. apply ptrs_links; auto.
Qed.
Print Assumptions C71_shape.

Lemma obtained_wok T F (t : tree T) l : obtained F t l -> exists w, wok w /\ b_tree (w_builder w) = t.
Proof.
  intros Ho. destruct (C71_either T F t l Ho) as (HF & _ & [(ops & Hw & Hb)|M]).
  - exists (run_world F ops). split; [apply run_wok; auto|]. symmetry. apply (builds_so_far _ _ _ _ Hb).
  - destruct (mod_twin T F t l M) as (ops & u & _ & Hw & Hb & S & E1 & E2). destruct (run_wok T F ops HF) as [K1 K2]. pose proof (builds_so_far _ _ _ _ Hb) as Eu. unfold tree_so_far in Eu.
    set (w := run_world F ops) in *. destruct w as [h b env]. cbn [w_heap w_builder w_env] in *.
    exists (World h (Builder t (b_checkpoint b) (b_parent b) (b_sibling b) (b_cursor b)) env). split; [|auto]. split; auto. cbn [w_heap w_builder].
    eapply ok_ext; [exact K1| | | | |]; cbn [b_tree b_parent b_sibling]; auto; rewrite <- Eu; auto.
Qed.

(** No link leaves the table; every iterator ends; every search returns. *)
Theorem C71_safe : forall T F (t : tree T) l, obtained F t l ->
  links_in_bounds t /\
  forall i n, tree_get t i = Some n ->
    (fits F t -> every_iterator_ends F t n) /\
    (forall St p (st : St), exists st' o, find_preceding_mut (t_nodes t) p st n = Ok (st', o)) /\
    (forall bs s e, exists o, node_with_range F bs t s e = Ok o).
Proof.
  intros T F t l Ho. destruct (obtained_wok T F t l Ho) as (w & K & <-). split; [apply wok_links; auto|]. intros i n E. split; [|apply (searches_end T F w i n K E)].
  intros Hf. apply (iterators_end T F w i n K); auto. unfold tree_get, node_at in E. destruct (nth_error (t_nodes (b_tree (w_builder w))) i) as [x|] eqn:Ex; [|discriminate]. injection E as <-.
  pose proof (fits_usize F _ Hf) as HU. apply nth_lt in Ex. destruct (obtained_facts T F _ l Ho) as (_ & _ & _ & _ & HB). unfold tree_len in HB.
  apply (node_id_spec F (i, x)); simpl; lia.
Qed.
Print Assumptions C71_safe.

(** ** Equality and printing *)
Lemma mod_shown T F (t : tree T) l : modified F t l -> shown t l = flat_map (preorder_depth 0) l.
Proof.
  intros M. apply complete_tour. intros p s x Hs Hx. destruct (in_split _ _ Hx) as (s1 & s2 & ->). destruct (C58_nodes T F t l M) as (_ & G & _ & _).
  destruct (G x) as (n & En & _). { eapply sibling_list_in; [exact Hs|apply in_elt]. }
  destruct (C58_links T F t l M) as (_ & _ & L). destruct (L p s1 x s2 n Hs En) as (_ & P & _). unfold named. rewrite En.
  unfold answers in P. destruct (node_parent (t_nodes t) n) as [m|], p as [y|]; simpl in *; try discriminate; auto. unfold view, rview in P. congruence.
Qed.
Lemma obtained_shown T F (t : tree T) l : obtained F t l -> fits F t ->
  exists items, enumerates (walk_depths_next F (t_nodes t)) (tree_walk t) items /\
    map (fun i => (fst i, view (snd i))) items = map (fun i => (fst i, rview (snd i))) (shown t l) /\ length items <= tree_len t.
Proof.
  intros Ho Hf. destruct (C71_either T F t l Ho) as (HF & Hl & [(ops & Hw & Hb)|M]).
  - pose proof (builds_so_far _ _ _ _ Hb) as Et. subst t. exact (shown_depths T F ops l HF Hf Hl).
  - rewrite (mod_shown T F t l M). destruct (C58_walks T F t l M Hf) as (_ & (items & A & B) & _). exists items. split; auto. split; auto.
    apply (f_equal (@length _)) in B. rewrite !map_length, preorder_depth_len in B. rewrite B. destruct (C58_nodes T F t l M) as (-> & _). auto.
Qed.

(** [==] between any two trees, each however obtained and of any flavor: what the two walks show is compared. *)
Theorem C71_equal : forall T (eqT : T -> T -> bool) F F' (t t' : tree T) l l', obtained F t l -> obtained F' t' l' -> fits F t -> fits F' t' ->
  exists b, tree_eq F F' eqT t t' = Ok b /\ (b = true <-> show_alike eqT (shown t l) (shown t' l')).
Proof.
  intros T eqT F F' t t' l l' Ho Ho' Hf Hf'. destruct (obtained_shown T F t l Ho Hf) as (items & A & B & C). destruct (obtained_shown T F' t' l' Ho' Hf') as (items' & A' & B' & _).
  eapply equal_items; eauto.
Qed.
Print Assumptions C71_equal.

(** [print] and [Debug] list it; after a modify it is the whole document. *)
Theorem C71_print : forall T X F (t : tree T) l (source : span -> option X), obtained F t l -> fits F t ->
  print_with_lookup F t source = Ok (map (printed source) (shown t l)) /\
  debug_tree F t = Ok (map (fun i => (fst i, (r_data (snd i), r_span (snd i)))) (shown t l)) /\
  (modified F t l -> shown t l = flat_map (preorder_depth 0) l).
Proof.
  intros T X F t l source Ho Hf. destruct (obtained_shown T F t l Ho Hf) as (items & A & B & C). destruct (print_items T X F t l source items A B C) as [P D].
  split; auto. split; auto. apply mod_shown.
Qed.
Print Assumptions C71_print.

(** The hypotheses are met: the six-node tree of which the walk shows five (C64); modified without changes it shows six and the two are unequal, while
    modify cannot tell the first from the second. *)
Example C71_inhabited : exists t' l', obtained flavor_default (tree_so_far flavor_default missed_ops) missed_doc /\ obtained flavor_default t' l' /\ modified flavor_default t' l' /\
  fits flavor_default t' /\ modify 20 flavor_default [] (tree_so_far flavor_default missed_ops) = Ok t' /\
  modify 20 flavor_default [3] t' = modify 20 flavor_default [3] (tree_so_far flavor_default missed_ops) /\
  length (shown (tree_so_far flavor_default missed_ops) missed_doc) = 5 /\ length (shown t' l') = 6 /\
  tree_eq flavor_default flavor_default Nat.eqb (tree_so_far flavor_default missed_ops) t' = Ok false.
Proof.
  assert (Hp : pointers flavor_default []) by (intros i []).
  destruct (C64_modify nat flavor_default _ _ [] missed_obtained Hp) as (l' & n & s & He & Hn & _ & G).
  assert (E : exists t', modify 20 flavor_default [] (tree_so_far flavor_default missed_ops) = Ok t') by (eexists; vm_compute; reflexivity).
  destruct E as (t' & E). assert (Ho : obtained flavor_default t' l') by (eapply ob_modified; eauto; apply missed_obtained).
  assert (M : modified flavor_default t' l').
  { destruct (C71_proper nat flavor_default missed_ops (tree_so_far flavor_default missed_ops) missed_doc) as (ops' & u & k & _ & B & C & D & L & Em).
    - split; auto.
    - repeat constructor; simpl; try lia; vm_compute; discriminate.
    - vm_compute. reflexivity.
    - apply (read_reads _ 10). vm_compute. reflexivity.
    - eapply modified_now with (c := []) (t0 := u) (l0 := k); [|exact Hp|eapply edited_sees; eauto|rewrite <- Em; exact E].
      apply (made_built flavor_default ops'); auto. split; auto. }
  exists t', l'. split; [apply missed_obtained|]. split; auto. split; auto.
  assert (El : length (shown t' l') = 6).
  { rewrite (mod_shown nat flavor_default t' l' M), preorder_depth_len. destruct (C58_nodes nat flavor_default t' l' M) as (<- & _). vm_compute in E. injection E as <-. reflexivity. }
  clear He G Ho M. vm_compute in E. injection E as <-. split; [vm_compute; reflexivity|]. split; [vm_compute; reflexivity|]. split; [vm_compute; reflexivity|]. split; [vm_compute; reflexivity|].
  split; [exact El|]. vm_compute. reflexivity.
Qed.
