(** Property theorems: iterators are fused (C42); printing (C39). *)
From Coq Require Import Lia.
From Verif Require Import Base Pointer Index Tree Builder Hist Node Iter Print Spec Rep Refine TreeRep
  Enum WalkThms Demo PropsTree.

(** ** C42 *)

(** Once [nxt] has answered [None], every later call answers [None]. *)
Definition fused {S A} (nxt : S -> result (S * option A)) : Prop :=
  forall s s', nxt s = Ok (s', None) -> forall k, calls nxt k s' = Ok (repeat None k).

(** The same for an iterator with two ends: [None] from one end means [None] from both. *)
Definition fused_ends {S A} (front back : S -> result (S * option A)) : Prop :=
  forall s s', front s = Ok (s', None) \/ back s = Ok (s', None) ->
  forall sched, drive front back sched s' = Ok (repeat None (length sched)).

Lemma fused_by {S A} (nxt : S -> result (S * option A)) (P : S -> Prop) :
  (forall s s', nxt s = Ok (s', None) -> P s') ->
  (forall s, P s -> exists s', nxt s = Ok (s', None)) -> fused nxt.
Proof.
  intros H1 H2 s s' E k. apply H1 in E. revert s' E. induction k as [|k IH]; intros s' Hp; simpl; auto.
  destruct (H2 s' Hp) as (s2 & E). rewrite E. rewrite (IH s2); auto. eapply H1; eauto.
Qed.

(** None of these need the tree to be well formed: any link table, any iterator state. *)
Theorem C42_children : forall T (nodes : list (links T)),
  fused (total (children_next nodes)) /\ fused (total (children_next_back nodes)) /\
  fused_ends (total (children_next nodes)) (total (children_next_back nodes)).
Proof.
  intros T nodes.
  assert (F1 : forall s s', total (children_next nodes) s = Ok (s', None) -> ch_first s' = None \/ ch_last s' = None).
  { intros s s' E. unfold total, children_next in E. destruct (ch_first s) eqn:E1.
    - destruct (nth_error nodes n) as [l0|]; [|injection E as <-; auto]. simpl in E. destruct (ch_last s) eqn:E2.
      + destruct (Nat.eqb n n0); discriminate.
      + injection E as <-. auto.
    - injection E as <-. auto. }
  assert (F2 : forall s s', total (children_next_back nodes) s = Ok (s', None) -> ch_first s' = None \/ ch_last s' = None).
  { intros s s' E. unfold total, children_next_back in E. destruct (ch_last s) eqn:E1.
    - destruct (nth_error nodes n) as [l0|]; [|injection E as <-; auto]. simpl in E. destruct (ch_first s) eqn:E2.
      + destruct (Nat.eqb n n0); discriminate.
      + injection E as <-. auto.
    - injection E as <-. auto. }
  assert (G1 : forall s, ch_first s = None \/ ch_last s = None -> exists s', total (children_next nodes) s = Ok (s', None)).
  { intros s H. unfold total, children_next. destruct (ch_first s) eqn:E1; [|eauto].
    destruct H as [H|H]; [discriminate|]. destruct (nth_error nodes n); [|eauto]. simpl. rewrite H. eauto. }
  assert (G2 : forall s, ch_first s = None \/ ch_last s = None -> exists s', total (children_next_back nodes) s = Ok (s', None)).
  { intros s H. unfold total, children_next_back. destruct (ch_last s) eqn:E1; [|eauto].
    destruct H as [H|H]; [|discriminate]. destruct (nth_error nodes n); [|eauto]. simpl. rewrite H. eauto. }
  split; [exact (fused_by _ _ F1 G1)|]. split; [exact (fused_by _ _ F2 G2)|].
  intros s s' E sched. assert (P : ch_first s' = None \/ ch_last s' = None) by (destruct E; eauto). clear E s.
  revert s' P. induction sched as [|b sched IH]; intros s' P; simpl; auto. destruct b.
  - destruct (G1 s' P) as (s2 & E). rewrite E. rewrite (IH s2); auto. eapply F1; eauto.
  - destruct (G2 s' P) as (s2 & E). rewrite E. rewrite (IH s2); auto. eapply F2; eauto.
Qed.
Print Assumptions C42_children.

Theorem C42_siblings : forall T (nodes : list (links T)), fused (total (siblings_next nodes)).
Proof.
  intros T nodes. apply (fused_by _ (fun s => s = None)).
  - intros [n|] s' E; [discriminate|]. injection E as <-. auto.
  - intros s ->. simpl. eexists. reflexivity.
Qed.
Print Assumptions C42_siblings.

Theorem C42_ancestors : forall T (nodes : list (links T)), fused (total (ancestors_next nodes)).
Proof.
  intros T nodes. apply (fused_by _ (fun s => s = None)).
  - intros [n|] s' E; [discriminate|]. injection E as <-. auto.
  - intros s ->. simpl. eexists. reflexivity.
Qed.
Print Assumptions C42_ancestors.

Lemma walk_events_end {T} F (nodes : list (links T)) w w' :
  walk_events_next F nodes w = (w', None) -> wk_node w' = None.
Proof.
  unfold walk_events_next. destruct (wk_node w) as [[id e]|] eqn:E.
  - destruct (nth_error nodes id); [|intros H; injection H as <-; auto]. destruct (walk_step F l e (wk_depth w)). discriminate.
  - intros H. injection H as <-. auto.
Qed.
Lemma walk_events_ended {T} F (nodes : list (links T)) w :
  wk_node w = None -> walk_events_next F nodes w = (w, None).
Proof. intros E. unfold walk_events_next. rewrite E. auto. Qed.

Theorem C42_walk : forall T F (nodes : list (links T)),
  fused (total (walk_events_next F nodes)) /\ fused (walk_next F nodes) /\
  fused (walk_depths_next F nodes) /\ fused (inside_next F nodes).
Proof.
  intros T F nodes. split; [|split; [|split]]; apply (fused_by _ (fun w => wk_node w = None)).
  - intros s s' E. unfold total in E. injection E as E. eapply walk_events_end. eauto.
  - intros s H. unfold total. rewrite (walk_events_ended F nodes s H). eauto.
  - unfold walk_next. generalize (loop_fuel nodes). induction n as [|n IH]; intros s s'; simpl; [discriminate|].
    destruct (walk_events_next F nodes s) as [w [[e x]|]] eqn:E.
    + destruct e; try discriminate. apply IH.
    + intros G; injection G as <-. eapply walk_events_end. eauto.
  - intros s H. unfold walk_next. cbn [loop_fuel walk_loop]. simpl. rewrite (walk_events_ended F nodes s H). eauto.
  - unfold walk_depths_next. generalize (loop_fuel nodes). induction n as [|n IH]; intros s s'; simpl; [discriminate|].
    destruct (walk_events_next F nodes s) as [w [[e x]|]] eqn:E.
    + destruct e; try discriminate. apply IH.
    + intros G; injection G as <-. eapply walk_events_end. eauto.
  - intros s H. unfold walk_depths_next. simpl. rewrite (walk_events_ended F nodes s H). eauto.
  - unfold inside_next. generalize (loop_fuel nodes). induction n as [|n IH]; intros s s'; simpl; [discriminate|].
    destruct (walk_events_next F nodes s) as [w [[e x]|]] eqn:E.
    + destruct e; try discriminate. apply IH.
    + intros G; injection G as <-. eapply walk_events_end. eauto.
  - intros s H. unfold inside_next. simpl. rewrite (walk_events_ended F nodes s H). eauto.
Qed.
Print Assumptions C42_walk.

(** [Default]: an iterator over nothing, over any nodes ([None] is the default of [Siblings] and
    [Ancestors]; [Walk], [WithDepths] and [Inside] default to the default of [WalkEvents]). *)
Theorem C42_default : forall T F (nodes : list (links T)),
  (forall sched, drive (total (children_next nodes)) (total (children_next_back nodes)) sched children_default
     = Ok (repeat None (length sched))) /\
  enumerates (total (siblings_next nodes)) None [] /\
  enumerates (total (ancestors_next nodes)) None [] /\
  enumerates (total (walk_events_next F nodes)) walk_default [] /\
  enumerates (walk_next F nodes) walk_default [] /\
  enumerates (walk_depths_next F nodes) walk_default [] /\
  enumerates (inside_next F nodes) walk_default [].
Proof.
  intros T F nodes.
  assert (G : forall S A (nxt : S -> result (S * option A)) s, nxt s = Ok (s, None) -> enumerates nxt s []).
  { intros S A nxt s E k. simpl. rewrite firstn_all2 by (rewrite repeat_length; auto).
    induction k as [|k IH]; simpl; auto. rewrite E, IH. auto. }
  split; [induction sched as [|[] sched IH]; simpl; auto; unfold total in *; simpl; rewrite IH; auto|].
  repeat split; apply G; reflexivity.
Qed.
Print Assumptions C42_default.

(** SkipTokens (and every [find]-based adaptor) of a fused iterator is fused. *)
Theorem C42_skip_tokens : forall S T (nxt : S -> result (S * option (node T))) fuel,
  fused nxt -> 0 < fuel -> fused (skip_next fuel nxt).
Proof.
  intros S T nxt fuel H Hf. apply (fused_by _ (fun s => forall k, calls nxt k s = Ok (repeat None k))).
  - unfold skip_next. revert Hf. induction fuel as [|fuel IH]; intros Hf s s'; simpl; [discriminate|].
    destruct (nxt s) as [[s1 [a|]]| |] eqn:E; try discriminate.
    + destruct (has_children a); [discriminate|]. destruct fuel; [discriminate|]. apply IH. lia.
    + intros G. injection G as <-. eapply H; eauto.
  - intros s Hs. destruct fuel; [lia|]. unfold skip_next. simpl. pose proof (Hs 1) as E. simpl in E.
    destruct (nxt s) as [[s1 [a|]]| |]; try discriminate. eauto.
Qed.
Print Assumptions C42_skip_tokens.

Example C42_inhabited :
  walk_next flavor_default (t_nodes demo_tree) (WalkIt (Some (5, Next)) 1) =
    Ok (WalkIt (Some (0, Up)) 0, Some (5, Links 3 (Span 5 5) (Some 0) (Some 4) None None None)) /\
  walk_next flavor_default (t_nodes demo_tree) (WalkIt (Some (6, Up)) 0) = Ok (WalkIt None (-1), None).
Proof. split; vm_compute; reflexivity. Qed.

(** ** C39 *)

(** The line a document node should give: indentation, value, span and, for
    childless nodes, what the source shows there. *)
Definition printed {T X} (source : span -> option X) (x : Z * rose T) : line T X :=
  Line (fst x * 2)%Z (r_data (snd x)) (r_span (snd x))
    (if has_kids (snd x) then TNone
     else match source (r_span (snd x)) with Some s => TText s | None => TPlus end).

Lemma preorder_depth_len {T} (l : list (rose T)) : length (flat_map (preorder_depth 0) l) = length (preorder_list l).
Proof.
  assert (G : forall (x : rose T) k, length (preorder_depth k x) = length (preorder x)).
  { induction x as [i kd d sp kids IH] using rose_ind'. intros k. cbn [preorder_depth preorder length]. f_equal.
    clear -IH. induction IH; simpl; auto. rewrite !app_length, IHIH, H. auto. }
  unfold preorder_list. induction l; simpl; auto. rewrite !app_length, IHl, G. auto.
Qed.

Theorem C39_print : forall T X F (ops : list (op T)) t l (source : span -> option X),
  finished F ops t l ->
  print_with_lookup F t source = Ok (map (printed source) (flat_map (preorder_depth 0) l)).
Proof.
  intros T X F ops t l source H. destruct (C21_depths T F ops t l H) as (items & En & V).
  unfold print_with_lookup.
  assert (Hl : length items = length (t_nodes t)).
  { rewrite (tr_length _ _ (fin_rep F ops t l H)), <- preorder_depth_len.
    rewrite <- (map_length (fun i => (fst i, view (snd i)))), V, map_length. auto. }
  destruct (iter_collect_enumerates _ items (tree_walk t) (S (tree_len t)) En) as (s' & -> & _).
  { unfold tree_len. lia. }
  f_equal. clear -V. revert V. generalize (flat_map (preorder_depth 0) l). clear l.
  induction items as [|[k n] items IH]; intros [|[k' x] l] V; try discriminate; auto.
  simpl in V. injection V as -> _ Ed Es Eh V. simpl. rewrite (IH _ V).
  f_equal. unfold printed. simpl. rewrite Ed, Es, Eh. auto.
Qed.
Print Assumptions C39_print.

(** [print]: no text at all.  [print_with_source]: the text in the range, if
    it is a range of the source between char boundaries. *)
Theorem C39_plain : forall T X F (ops : list (op T)) t l, finished F ops t l ->
  @print T X F t = Ok (map (printed (fun _ => None)) (flat_map (preorder_depth 0) l)).
Proof. intros T X F ops t l H. apply (C39_print T X F ops). auto. Qed.
Print Assumptions C39_plain.

Theorem C39_source : forall T B F (ops : list (op T)) t l boundary (src : list B), finished F ops t l ->
  exists text, print_with_source F t boundary src = Ok (map (printed text) (flat_map (preorder_depth 0) l)) /\
  (forall sp, fl_index F <> IxEmpty ->
     (s_start sp <= s_end sp <= N.of_nat (length src))%N ->
     boundary (s_start sp) = true -> boundary (s_end sp) = true ->
     exists before shown after, text sp = Some shown /\ src = before ++ shown ++ after /\
       N.of_nat (length before) = s_start sp /\ N.of_nat (length before + length shown) = s_end sp) /\
  (forall sp, fl_index F <> IxEmpty ->
     (s_end sp < s_start sp \/ N.of_nat (length src) < s_end sp)%N \/ boundary (s_start sp) = false \/ boundary (s_end sp) = false ->
     text sp = None).
Proof.
  intros T B F ops t l boundary src H. eexists. split; [apply (C39_print T (list B) F ops t l); auto|].
  assert (R : fl_index F <> IxEmpty -> forall sp, span_range F sp = (s_start sp, s_end sp)).
  { intros He sp. unfold span_range, ix_as_usize. destruct (fl_index F); congruence. }
  split; intros sp He; rewrite (R He); unfold source_get.
  - intros [H1 H2] B1 B2. rewrite (proj2 (N.leb_le _ _) H1), (proj2 (N.leb_le _ _) H2), B1, B2. simpl.
    set (s := s_start sp) in *. set (e := s_end sp) in *.
    exists (firstn (N.to_nat s) src), (firstn (N.to_nat e - N.to_nat s) (skipn (N.to_nat s) src)),
      (skipn (N.to_nat e - N.to_nat s) (skipn (N.to_nat s) src)).
    split; [auto|]. split; [rewrite firstn_skipn, firstn_skipn; auto|].
    assert (L1 : length (firstn (N.to_nat s) src) = N.to_nat s) by (apply firstn_length_le; lia).
    rewrite L1. rewrite firstn_length_le by (rewrite skipn_length; lia). lia.
  - intros Hbad. destruct (s_start sp <=? s_end sp)%N eqn:E1; auto.
    destruct (s_end sp <=? N.of_nat (length src))%N eqn:E2; auto.
    apply N.leb_le in E1, E2. destruct Hbad as [Hb|[Hb|Hb]]; [lia| |]; rewrite Hb; simpl; auto.
    destruct (boundary (s_start sp)); auto.
Qed.
Print Assumptions C39_source.

Example C39_inhabited : print_with_source flavor_default demo_tree (fun _ => true) [1;2;3;4;5;6] =
  Ok [ Line 0 10 (Span 0 5) TNone; Line 2 1 (Span 0 3) (TText [1;2;3]); Line 2 11 (Span 3 5) TNone;
       Line 4 2 (Span 3 5) (TText [4;5]); Line 4 12 (Span 5 5) (TText []); Line 2 3 (Span 5 5) (TText []);
       Line 0 4 (Span 5 9) TPlus ].
Proof. vm_compute. reflexivity. Qed.
