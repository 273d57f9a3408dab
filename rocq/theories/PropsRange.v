(** Property theorems: range queries (C30, C31). *)
From Coq Require Import Lia.
From Verif Require Import Base Pointer Index Tree Builder Hist Node Iter Query Spec SpecEq SpecSpan SpecRange Rep Refine TreeRep
  Enum WalkThms Nav DocInv Layout AllHist Demo PropsTree PropsSpan PropsEq PropsSafe PropsWith Range.
Local Open Scope N_scope.

(** ** Chains of ancestors *)
Section Chains.
Context {T : Type}.
Variable t : tree T.
Variable l : list (rose T).
Hypothesis Hrep : tree_rep t l.

Lemma ancestry_head x ch : ancestry l x ch -> exists ch', ch = x :: ch'.
Proof. inversion 1; eauto. Qed.

Lemma ancestry_unique x ch : ancestry l x ch -> forall ch', ancestry l x ch' -> ch = ch'.
Proof.
  assert (G : forall x s1 s2 p n, In (p, s1 ++ x :: s2) (sibling_lists l) -> tree_get t (r_id x) = Some n ->
     answers (node_parent (t_nodes t) n) p).
  { intros y s1 s2 p n Hs E. apply (nav_links t l Hrep _ _ _ _ _ Hs E). }
  assert (R : forall x n, In x l -> tree_get t (r_id x) = Some n -> answers (node_parent (t_nodes t) n) None).
  { intros y n Hy E. destruct (in_split _ _ Hy) as (s1 & s2 & El). apply (G y s1 s2 None n); auto. left. congruence. }
  assert (K : forall x y n, In y (preorder_list l) -> In x (r_kids y) -> tree_get t (r_id x) = Some n -> answers (node_parent (t_nodes t) n) (Some y)).
  { intros u y n Hy Hu E. destruct (in_split _ _ Hu) as (s1 & s2 & El). apply (G u s1 s2 (Some y) n); auto. rewrite <- El. apply kids_sibling_list; auto. }
  assert (E : forall x, In x (preorder_list l) -> exists n, tree_get t (r_id x) = Some n).
  { intros y Hy. pose proof (preorder_id_lt _ _ _ Hrep Hy) as Hlt. unfold tree_get, node_at.
    destruct (nth_error (t_nodes t) (r_id y)) eqn:En; eauto. apply nth_error_None in En. lia. }
  induction 1 as [x Hx|x y ch Hy IH Hx]; intros ch' H'; inversion H' as [x' Hx'|x' y' c' Hy' Hx']; subst; auto.
  - exfalso. destruct (E x (preorder_list_top _ _ Hx)) as (n & En). pose proof (R x n Hx En) as A1.
    pose proof (K x y' n (ancestry_in _ _ _ Hy') Hx' En) as A2. unfold answers in *. destruct (node_parent _ n); discriminate.
  - exfalso. destruct (E x (preorder_list_top _ _ Hx')) as (n & En). pose proof (R x n Hx' En) as A1.
    pose proof (K x y n (ancestry_in _ _ _ Hy) Hx En) as A2. unfold answers in *. destruct (node_parent _ n); discriminate.
  - pose proof (ancestry_in _ _ _ Hy) as I1. pose proof (ancestry_in _ _ _ Hy') as I2.
    destruct (E x (preorder_list_kid _ _ _ I1 Hx)) as (n & En).
    pose proof (K x y n I1 Hx En) as A1. pose proof (K x y' n I2 Hx' En) as A2. unfold answers in *.
    destruct (node_parent _ n) as [m|]; [|discriminate]. simpl in A1, A2.
    assert (y = y') as <-. { eapply preorder_id_inj; eauto. unfold view, rview in *. congruence. }
    f_equal. apply IH. auto.
Qed.

Lemma ancestry_down z chz : ancestry l z chz -> forall x, In x (preorder z) -> exists pre, ancestry l x (pre ++ chz).
Proof.
  revert chz. assert (G : forall n z, (length (preorder z) <= n)%nat -> forall chz, ancestry l z chz -> forall x, In x (preorder z) -> exists pre, ancestry l x (pre ++ chz)).
  { induction n as [|n IH]; intros [i k d sp kids] Hn chz Hz x Hx; [simpl in Hn; lia|].
    destruct Hx as [<-|Hx]; [exists []; auto|]. fold (preorder_list kids) in Hx. apply in_flat_map in Hx as (y & Hy & Hx).
    assert (Hl : (length (preorder y) <= n)%nat).
    { apply in_split in Hy as (k1 & k2 & ->). simpl in Hn. rewrite flat_map_app, app_length in Hn. simpl in Hn. rewrite app_length in Hn. lia. }
    destruct (IH y Hl (y :: chz)) with (x := x) as (pre & Hp); auto.
    { eapply anc_child; eauto. }
    exists (pre ++ [y]). rewrite <- app_assoc. auto. }
  intros chz. eapply G; eauto.
Qed.

Lemma in_chain x ch z : ancestry l x ch -> In z (preorder_list l) -> In x (preorder z) -> In z ch.
Proof.
  intros Hx Hz Hi. destruct (ancestry_exists l z Hz) as (chz & Hc). destruct (ancestry_down z chz Hc x Hi) as (pre & Hp).
  rewrite (ancestry_unique x ch Hx _ Hp). destruct (ancestry_head z chz Hc) as (c & ->). apply in_elt.
Qed.

Lemma chain_pre x ch : ancestry l x ch -> forall z, In z ch -> In x (preorder z).
Proof.
  induction 1 as [x Hx|x y ch Hy IH Hx]; intros z [<-|Hz]; try apply preorder_self; [destruct Hz|].
  eapply preorder_kid; eauto.
Qed.

Lemma chain_all x ch : ancestry l x ch -> forall z, In z ch -> In z (preorder_list l).
Proof.
  induction 1 as [x Hx|x y ch Hy IH Hx]; intros z [<-|Hz]; auto.
  - apply preorder_list_top; auto.
  - destruct Hz.
  - eapply preorder_list_kid; eauto. apply (ancestry_in l _ _ Hy).
Qed.

Lemma chain_kids x y ch : ancestry l x (x :: y :: ch) -> In x (r_kids y) /\ ancestry l y (y :: ch).
Proof.
  intros H. inversion H as [|? y' ? Hy Hx]; subst. destruct (ancestry_head _ _ Hy) as (c & Ec). injection Ec as <- <-. auto.
Qed.

Lemma enclosing_exists e x ch : ancestry l x ch -> exists r, enclosing e ch r.
Proof.
  induction 1 as [x Hx|x y ch Hy (r & IH) Hx]; [exists x; constructor|].
  destruct (ancestry_head _ _ Hy) as (c & ->). destruct (N.le_gt_cases e (s_end (r_span y))).
  - exists y. constructor. auto.
  - exists r. apply enc_up; auto.
Qed.

Lemma enclosing_in e ch (r : rose T) : enclosing e ch r -> In r ch.
Proof. induction 1; simpl in *; auto. Qed.

Lemma enclosing_first e x ch r z : ancestry l x ch -> enclosing e ch r -> In z (tl ch) -> e <= s_end (r_span z) ->
  In r (tl ch) /\ e <= s_end (r_span r) /\ In r (preorder z).
Proof.
  intros Ha He. revert x Ha z. induction He as [x|x y ch Hle|x y ch r Hgt H IH]; intros x0 Ha z Hz Hez.
  - destruct Hz.
  - assert (x0 = x) as -> by (inversion Ha; auto). destruct (chain_kids _ _ _ Ha) as [Hk Hy].
    split; [simpl; auto|]. split; auto. eapply chain_pre; [exact Hy|exact Hz].
  - assert (x0 = x) as -> by (inversion Ha; auto). destruct (chain_kids _ _ _ Ha) as [Hk Hy].
    simpl in Hz. destruct Hz as [<-|Hz]; [lia|]. destruct (IH y Hy z Hz Hez) as (A & B & C).
    split; auto. simpl in *. tauto.
Qed.

Lemma chain_holds s0 e0 s x ch : laid_list s0 l e0 -> ancestry l x ch -> holds_pos s x -> forall z, In z ch -> holds_pos s z.
Proof.
  intros HL Ha Hp z Hz. pose proof (chain_pre x ch Ha z Hz) as Hx. pose proof (chain_all x ch Ha z Hz) as Hi.
  destruct (proj2 laid_inside _ _ _ HL z Hi) as (s1 & e1 & Hl & _). pose proof (proj1 laid_bounds _ _ _ Hl x Hx) as Hb.
  unfold holds_pos in *. rewrite (laid_span _ _ _ Hl). simpl. lia.
Qed.

Lemma chain_has_kids x ch : ancestry l x ch -> forall z, In z (tl ch) -> has_kids z = true.
Proof.
  induction 1 as [x Hx|x y ch Hy IH Hx]; intros z Hz; [destruct Hz|].
  simpl in Hz. destruct (ancestry_head _ _ Hy) as (c & ->). destruct Hz as [<-|Hz]; [|apply IH; auto].
  destruct y as [i k d sp [|u kids]]; [destruct Hx|auto].
Qed.

Lemma root_ancestor e x ch r : ancestry l x ch -> enclosing e ch r -> (exists z, In z (tl ch) /\ e <= s_end (r_span z)) \/ In r l.
Proof.
  intros Ha He. revert x Ha. induction He as [x|x y ch Hle|x y ch r Hgt H IH]; intros x0 Ha.
  - right. inversion Ha; subst; auto. inversion H2.
  - left. exists y. simpl. auto.
  - assert (x0 = x) as -> by (inversion Ha; auto). destruct (chain_kids _ _ _ Ha) as [Hk Hy].
    destruct (IH y Hy) as [(z & Hz & Hez)|Hr]; auto. left. exists z. simpl in *. auto.
Qed.
End Chains.

(** ** C30: range queries *)

(** The search of the standard library meets the contract, so the theorems below, which hold for
    every search that does, are about the program as it runs. *)
Theorem C30_search : meets_contract std_search.
Proof. exact std_contract. Qed.
Print Assumptions C30_search.

Lemma plain_indexes T F (ops : list (op T)) t l : plain_run F ops t l -> fl_indexes F = SVec ->
  t_indexes t = stored (token_spans 0 ops (run_outs F ops)) /\ tile 0 (map snd (token_spans 0 ops (run_outs F ops))) (total_of F ops).
Proof.
  intros (HE & (HF & (a & rs & Hd & Ho & <-) & Hb & _) & HP) HI.
  assert (Hrs : run_outs F ops = rs) by (eapply C01_results; eauto). unfold total_of. rewrite Hrs in *.
  destruct (plain_index F HE HI ops 0%N doc_new a rs (doc_new_laid) Hd HP) as (A & B). simpl in A.
  split; [|exact B].
  destruct (Refine.refines F HF ops a rs Hd) as (w & E & HR). unfold builds, run_world in Hb. rewrite E in Hb. simpl in Hb.
  pose proof (r_builder _ _ HR) as HB. unfold build in Hb. rewrite (br_parent _ _ HB), Ho in Hb. simpl in Hb. injection Hb as <-.
  rewrite (br_index _ _ HB). exact A.
Qed.

Lemma kids_none T (x : rose T) : has_kids x = false <-> r_kids x = [].
Proof. destruct x as [i k d sp [|y kids]]; simpl; split; auto; discriminate. Qed.

(** Where a position below the end belongs to: exactly one childless node. *)
Theorem C30_position : forall T F (ops : list (op T)) t l s,
  plain_run F ops t l -> fl_indexes F = SVec -> s < total_of F ops ->
  exists x ch, r_kids x = [] /\ holds_pos s x /\ ancestry l x ch /\
    (forall y, In y (preorder_list l) -> r_kids y = [] -> holds_pos s y -> y = x).
Proof.
  intros T F ops t l s H HI Hs. destruct (plain_indexes T F ops t l H HI) as [HX HT].
  destruct (tile_stored _ _ _ HT) as (HA & _ & _).
  pose proof (contract_next std_search _ s _ std_contract HA eq_refl) as HN.
  destruct (tile_find _ s _ _ _ HT (N.le_0_l _) HN) as [G _]. destruct (G Hs) as (id & sp & _ & Hin & Hp).
  destruct (plain_facts T F ops t l H) as (HL & _ & HTok). destruct (HTok id sp Hin) as (k & d & Hx).
  destruct (ancestry_exists l _ Hx) as (ch & Hc). exists (Nd id k d sp []), ch. split; auto. split; [exact Hp|]. split; auto.
  intros y Hy Hk Hyp. pose proof (proj2 (holds_above s (Nd id k d sp []) y eq_refl Hp Hyp) _ _ _ HL Hx Hy) as HI1.
  destruct y as [i' k' d' sp' kids]. simpl in Hk. subst kids. destruct HI1 as [HI1|[]]. auto.
Qed.
Print Assumptions C30_position.

(** The answer for a position below the end: from the childless node at [s], the first strict
    ancestor that ends at or after [e]; without one, the root above. *)
Theorem C30_answer : forall T F (ops : list (op T)) t l bs s e x ch,
  plain_run F ops t l -> fl_indexes F = SVec -> meets_contract bs ->
  r_kids x = [] -> holds_pos s x -> ancestry l x ch ->
  exists n r, node_with_span bs t (Span s e) = Ok (Some n) /\ enclosing e ch r /\ view n = rview r /\ In r (preorder_list l).
Proof.
  intros T F ops t l bs s e x ch H HI Hbs Hk Hp Ha.
  destruct (plain_indexes T F ops t l H HI) as [HX HT]. destruct (plain_facts T F ops t l H) as (HL & _ & HTok).
  assert (Hs : s < total_of F ops).
  { pose proof (proj2 laid_bounds _ _ _ HL x (ancestry_in _ _ _ Ha)). unfold holds_pos in Hp. lia. }
  destruct (tile_stored _ _ _ HT) as (HA & _ & _). rewrite <- HX in HA.
  unfold node_with_span, node_with_span_internal. cbn [s_start s_end].
  set (n := match bs (t_indexes t) s with inl n => S n | inr n => n end).
  pose proof (contract_next bs _ s n Hbs HA eq_refl) as HN. rewrite HX in HN.
  destruct (tile_find _ s _ _ n HT (N.le_0_l _) HN) as [G _]. destruct (G Hs) as (id & sp & Hn & Hin & Hq).
  destruct (HTok id sp Hin) as (k & d & Hx0).
  pose proof (proj2 (holds_above s x _ Hk Hp (Hq : holds_pos s (Nd id k d sp []))) _ _ _ HL (ancestry_in _ _ _ Ha) Hx0) as HI1.
  destruct HI1 as [<-|[]]. rewrite HX, Hn. pose proof H as (_ & Hf & _).
  destruct (fin_get F ops t l Hf _ Hx0) as (m & Em & _). simpl in Em. rewrite Em.
  assert (Hc : exists o, climb (S (tree_len t)) (t_nodes t) e m = Ok o).
  { destruct Hf as (HF & _ & Hb & _). destruct (run_wok T F ops HF) as [(lo & hi & cap & stk & HB & _) _].
    pose proof (bi_table _ _ _ _ _ HB) as HTb. fold (tree_so_far F ops) in HTb. rewrite <- (builds_so_far _ _ _ _ Hb) in HTb.
    unfold tree_get, node_at in Em. destruct (nth_error (t_nodes t) id) as [lk|] eqn:El; [|discriminate]. injection Em as <-.
    destruct (AllWalk.climb_ends _ _ _ _ HTb e (S (tree_len t)) id lk El) as (o & Eo & _); [|eauto]. pose proof (AllWalk.ups_n (t_nodes t) lo id). unfold tree_len. lia. }
  destruct Hc as (o & Ho). rewrite Ho.
  destruct (climb_spec t l (fin_rep F ops t l Hf) e _ ch Ha _ m o Em Ho) as (r & H1 & H2 & H3).
  exists o, r. auto.
Qed.
Print Assumptions C30_answer.

(** At or past the end there is no answer. *)
Theorem C30_none : forall T F (ops : list (op T)) t l bs s e,
  plain_run F ops t l -> fl_indexes F = SVec -> meets_contract bs -> total_of F ops <= s ->
  node_with_span bs t (Span s e) = Ok None.
Proof.
  intros T F ops t l bs s e H HI Hbs Hs. destruct (plain_indexes T F ops t l H HI) as [HX HT].
  destruct (tile_stored _ _ _ HT) as (HA & _ & _). rewrite <- HX in HA.
  unfold node_with_span, node_with_span_internal. cbn [s_start s_end].
  set (n := match bs (t_indexes t) s with inl n => S n | inr n => n end).
  pose proof (contract_next bs _ s n Hbs HA eq_refl) as HN. rewrite HX in HN.
  destruct (tile_find _ s _ _ n HT (N.le_0_l _) HN) as [_ G]. rewrite HX, (G Hs). auto.
Qed.
Print Assumptions C30_none.

(** [node_with_range] is the same query, unless the index is [u32] and a bound does not fit. *)
Theorem C30_range : forall T F (t : tree T) bs s e,
  (fl_index F <> IxEmpty -> s <= ix_max F -> e <= ix_max F -> node_with_range F bs t s e = node_with_span bs t (Span s e)) /\
  (fl_index F = IxU32 -> 2 ^ 32 <= s \/ 2 ^ 32 <= e -> node_with_range F bs t s e = Ok None).
Proof.
  intros T F t bs s e. unfold node_with_range, node_with_span, ix_from_usize, ix_max, int_max. cbn [s_start s_end].
  change (2 ^ 32) with 4294967296.
  destruct (fl_index F); (split; [intros HE H1 H2|intros HE H1]); try congruence.
  - rewrite (proj2 (N.leb_le _ _) H1), (proj2 (N.leb_le _ _) H2); auto.
  - destruct (N.leb_spec s 4294967295), (N.leb_spec e 4294967295); auto; lia.
Qed.
Print Assumptions C30_range.

(** The claim: when nodes with children contain the position [s] and reach to [e], the answer is
    one of them, and lies inside all the others. *)
Theorem C30_smallest : forall T F (ops : list (op T)) t l bs s e z,
  plain_run F ops t l -> fl_indexes F = SVec -> meets_contract bs -> s < total_of F ops ->
  In z (preorder_list l) -> has_kids z = true -> holds_pos s z -> e <= s_end (r_span z) ->
  exists n r, node_with_span bs t (Span s e) = Ok (Some n) /\ view n = rview r /\ In r (preorder_list l) /\
    has_kids r = true /\ holds_pos s r /\ e <= s_end (r_span r) /\
    (forall z', In z' (preorder_list l) -> has_kids z' = true -> holds_pos s z' -> e <= s_end (r_span z') -> In r (preorder z')).
Proof.
  intros T F ops t l bs s e z H HI Hbs Hs Hz Hk Hp He.
  destruct (C30_position T F ops t l s H HI Hs) as (x & ch & Hxk & Hxp & Ha & _).
  destruct (C30_answer T F ops t l bs s e x ch H HI Hbs Hxk Hxp Ha) as (n & r & En & Hr & Hv & Hin).
  destruct (plain_facts T F ops t l H) as (HL & _ & _). pose proof H as (_ & Hf & _). pose proof (fin_rep F ops t l Hf) as Hrep.
  assert (G : forall z', In z' (preorder_list l) -> has_kids z' = true -> holds_pos s z' -> In z' (tl ch)).
  { intros z' Hz' Hk' Hp'. pose proof (proj2 (holds_above s x z' Hxk Hxp Hp') _ _ _ HL (ancestry_in _ _ _ Ha) Hz') as Hi.
    pose proof (in_chain t l Hrep x ch z' Ha Hz' Hi) as Hc. destruct (ancestry_head l _ _ Ha) as (c & ->).
    destruct Hc as [<-|Hc]; auto. apply kids_none in Hxk. congruence. }
  destruct (enclosing_first l e x ch r z Ha Hr (G z Hz Hk Hp) He) as (A & B & C).
  exists n, r. split; auto. split; auto. split; auto. split; [eapply chain_has_kids; eauto|].
  split; [eapply chain_holds; eauto; destruct ch; [destruct A|right; auto]|]. split; auto.
  intros z' Hz' Hk' Hp' He'. apply (enclosing_first l e x ch r z' Ha Hr (G z' Hz' Hk' Hp') He').
Qed.
Print Assumptions C30_smallest.

(** Otherwise the answer is the root above [s], which need not reach to [e] (see the refutation). *)
Theorem C30_otherwise : forall T F (ops : list (op T)) t l bs s e,
  plain_run F ops t l -> fl_indexes F = SVec -> meets_contract bs -> s < total_of F ops ->
  (forall z, In z (preorder_list l) -> has_kids z = true -> holds_pos s z -> s_end (r_span z) < e) ->
  exists n r, node_with_span bs t (Span s e) = Ok (Some n) /\ view n = rview r /\ In r l /\ holds_pos s r.
Proof.
  intros T F ops t l bs s e H HI Hbs Hs Hno.
  destruct (C30_position T F ops t l s H HI Hs) as (x & ch & Hxk & Hxp & Ha & _).
  destruct (C30_answer T F ops t l bs s e x ch H HI Hbs Hxk Hxp Ha) as (n & r & En & Hr & Hv & Hin).
  destruct (plain_facts T F ops t l H) as (HL & _ & _).
  exists n, r. split; auto. split; auto.
  assert (Hh : forall z, In z ch -> holds_pos s z) by (eapply chain_holds; eauto).
  split; [|apply Hh; eapply enclosing_in; eauto].
  destruct (root_ancestor l e x ch r Ha Hr) as [(z & Hz & Hez)|Hl]; auto. exfalso.
  assert (In z ch) by (destruct ch; [destruct Hz|right; auto]).
  specialize (Hno z (chain_all l x ch Ha z H0) (chain_has_kids l x ch Ha z Hz) (Hh z H0)). lia.
Qed.
Print Assumptions C30_otherwise.

(** All of it as a function of the document without identifiers ([range_query] in SpecRange.v). *)
Theorem C30_query : forall T F (ops : list (op T)) t l bs s e,
  plain_run F ops t l -> fl_indexes F = SVec -> meets_contract bs ->
  match range_query (map erase l) s e with
  | None => node_with_span bs t (Span s e) = Ok None
  | Some q => exists n r, node_with_span bs t (Span s e) = Ok (Some n) /\ view n = rview r /\ In r (preorder_list l) /\ erase r = q
  end.
Proof.
  intros T F ops t l bs s e H HI Hbs. destruct (plain_facts T F ops t l H) as (HL & _ & _).
  destruct (N.lt_ge_cases s (total_of F ops)) as [Hs|Hs].
  - destruct (C30_position T F ops t l s H HI Hs) as (x & ch & Hxk & Hxp & Ha & _).
    destruct (C30_answer T F ops t l bs s e x ch H HI Hbs Hxk Hxp Ha) as (n & r & En & Hr & Hv & Hin).
    rewrite (range_query_spec s e _ _ l x ch r HL Ha Hxk Hxp Hr). exists n, r. auto.
  - rewrite (range_query_none s e _ _ l HL Hs). eapply C30_none; eauto.
Qed.
Print Assumptions C30_query.

(** ** C44: what the documentation promises *)

(** When some node with children holds [s] and reaches to [e], the answer does, too. *)
Theorem C44_contains_partial : forall T F (ops : list (op T)) t l bs s e z,
  plain_run F ops t l -> fl_indexes F = SVec -> meets_contract bs -> s <= e -> s < total_of F ops ->
  In z (preorder_list l) -> has_kids z = true -> holds_pos s z -> e <= s_end (r_span z) ->
  exists n, node_with_span bs t (Span s e) = Ok (Some n) /\ has_children n = true /\
    s_start (node_span n) <= s /\ e <= s_end (node_span n).
Proof.
  intros T F ops t l bs s e z H HI Hbs Hse Hs Hz Hk Hp He.
  destruct (C30_smallest T F ops t l bs s e z H HI Hbs Hs Hz Hk Hp He) as (n & r & En & V & _ & A & B & C & _).
  exists n. split; auto. apply view_span in V as (-> & -> & _). unfold holds_pos in B. tauto.
Qed.
Print Assumptions C44_contains_partial.

(** In particular below a single root with children. *)
Theorem C44_one_root_partial : forall T F (ops : list (op T)) t z bs s e,
  plain_run F ops t [z] -> has_kids z = true -> fl_indexes F = SVec -> meets_contract bs ->
  s <= e -> s < total_of F ops -> e <= total_of F ops ->
  exists n, node_with_span bs t (Span s e) = Ok (Some n) /\ has_children n = true /\
    s_start (node_span n) <= s /\ e <= s_end (node_span n).
Proof.
  intros T F ops t z bs s e H Hk HI Hbs Hse Hs He. destruct (plain_facts T F ops t _ H) as (HL & _ & _).
  assert (Hsp : r_span z = Span 0 (total_of F ops)).
  { inversion HL as [|? ? m ? ? L1 L2]; subst. inversion L2; subst. apply (laid_span _ _ _ L1). }
  apply (C44_contains_partial T F ops t [z] bs s e z); auto.
  - apply preorder_list_top. left. auto.
  - unfold holds_pos. rewrite Hsp. simpl. lia.
  - rewrite Hsp. simpl. auto.
Qed.
Print Assumptions C44_one_root_partial.

(** In general the documentation promises more: "the node returned always contains the entire range", and a
    node with children.  Two roots 0..3 and 3..6: the query 2..5 answers with the root 0..3.  A token
    that is a root is its own answer. *)
Definition two_roots : list (op nat) := [OOpen 10; OToken 1 3; OClose; OOpen 11; OToken 2 3; OClose]%nat.
Definition two_roots_doc : list (rose nat) :=
  [ Nd 0 KOpen 10 (Span 0 3) [Nd 1 KLeaf 1 (Span 0 3) []]; Nd 2 KOpen 11 (Span 3 6) [Nd 3 KLeaf 2 (Span 3 6) []] ]%nat.
Lemma two_roots_plain : exists t, plain_run flavor_default two_roots t two_roots_doc.
Proof.
  exists (tree_so_far flavor_default two_roots). split; [discriminate|]. split; [|vm_compute; repeat split; intros; discriminate].
  compute_finished.
Qed.
Theorem C44_contains_refuted : exists F (ops : list (op nat)) t l n,
  plain_run F ops t l /\ fl_indexes F = SVec /\ total_of F ops = 6 /\
  node_with_range F std_search t 2 5 = Ok (Some n) /\ node_span n = Span 0 3.
Proof.
  destruct two_roots_plain as (t & H). exists flavor_default, two_roots, t, two_roots_doc.
  assert (t = tree_so_far flavor_default two_roots) as ->.
  { destruct H as (_ & (_ & _ & Hb & _) & _). apply builds_so_far. auto. }
  eexists. split; [exact H|]. split; [reflexivity|]. split; [reflexivity|]. split; vm_compute; reflexivity.
Qed.
Print Assumptions C44_contains_refuted.

Theorem C44_token_refuted : exists F (ops : list (op nat)) t l n,
  plain_run F ops t l /\ fl_indexes F = SVec /\
  node_with_range F std_search t 0 0 = Ok (Some n) /\ has_children n = false.
Proof.
  exists flavor_default, [OToken 1 3]%nat, (tree_so_far flavor_default [OToken 1 3]%nat), [Nd 0%nat KLeaf 1%nat (Span 0 3) []].
  eexists. split.
  { split; [discriminate|]. split; [|vm_compute; repeat split; intros; discriminate]. compute_finished. }
  split; [reflexivity|]. split; vm_compute; reflexivity.
Qed.
Print Assumptions C44_token_refuted.

(** A nested document; queries that stop inside, go up, and find nothing. *)
Definition range_ops : list (op nat) :=
  [OOpen 10; OToken 1 3; OCheckpoint; OToken 2 2; OOpen 12; OTokenEmpty 5; OToken 6 4; OClose; OCloseAt 0 11; OToken 3 1; OClose]%nat.
Definition range_doc : list (rose nat) :=
  [ Nd 0 KOpen 10 (Span 0 10)
      [ Nd 1 KLeaf 1 (Span 0 3) [];
        Nd 6 KWrap 11 (Span 3 9) [ Nd 2 KLeaf 2 (Span 3 5) [];
          Nd 3 KOpen 12 (Span 5 9) [ Nd 4 KLeaf 5 (Span 5 5) []; Nd 5 KLeaf 6 (Span 5 9) [] ] ];
        Nd 7 KLeaf 3 (Span 9 10) [] ] ]%nat.
Example C30_inhabited : exists t, plain_run flavor_default range_ops t range_doc /\
  total_of flavor_default range_ops = 10 /\
  (exists n, node_with_range flavor_default std_search t 6 9 = Ok (Some n) /\ node_value n = 12%nat) /\
  (exists n, node_with_range flavor_default std_search t 4 6 = Ok (Some n) /\ node_value n = 11%nat) /\
  (exists n, node_with_range flavor_default std_search t 6 10 = Ok (Some n) /\ node_value n = 10%nat) /\
  node_with_range flavor_default std_search t 10 10 = Ok None.
Proof.
  exists (tree_so_far flavor_default range_ops). split.
  { split; [discriminate|]. split; [|vm_compute; repeat split; intros; discriminate]. compute_finished. }
  split; [reflexivity|]. repeat split; try (eexists; split); vm_compute; reflexivity.
Qed.

(** ** C31: equal trees *)
Section Alike.
Context {T : Type}.
Variable eqT : T -> T -> bool.
Lemma alike_span (x y : rose T) : alike eqT x y -> r_span x = r_span y.
Proof. destruct 1. auto. Qed.
Lemma alike_kids (x y : rose T) : alike eqT x y -> Forall2 (alike eqT) (r_kids x) (r_kids y).
Proof. destruct 1. auto. Qed.
Lemma Forall2_in (l1 l2 : list (rose T)) x : Forall2 (alike eqT) l1 l2 -> In x l1 -> exists y, In y l2 /\ alike eqT x y.
Proof. induction 1; intros []; subst; eauto using in_eq. destruct IHForall2 as (z & ? & ?); eauto using in_cons. Qed.
Lemma alike_ancestry l1 l2 x1 ch1 : Forall2 (alike eqT) l1 l2 -> ancestry l1 x1 ch1 ->
  exists x2 ch2, ancestry l2 x2 ch2 /\ alike eqT x1 x2 /\ Forall2 (alike eqT) ch1 ch2.
Proof.
  intros HL. induction 1 as [x Hx|x y ch Hy IH Hx].
  - destruct (Forall2_in _ _ _ HL Hx) as (x2 & H2 & A). exists x2, [x2]. split; [constructor; auto|]. auto.
  - destruct IH as (y2 & ch2 & Hy2 & A & AC). destruct (Forall2_in _ _ _ (alike_kids _ _ A) Hx) as (x2 & H2 & A2).
    exists x2, (x2 :: ch2). split; [econstructor; eauto|]. auto.
Qed.
Lemma alike_enclosing e ch1 r1 : enclosing e ch1 r1 -> forall ch2 r2, Forall2 (alike eqT) ch1 ch2 -> enclosing e ch2 r2 -> alike eqT r1 r2.
Proof.
  induction 1 as [x|x y ch Hle|x y ch r Hgt H IH]; intros ch2 r2 HA H2.
  - inversion HA as [|? x2 ? c2 A1 A2]; subst. inversion A2; subst. inversion H2; subst. auto.
  - inversion HA as [|? x2 ? c2 A1 A2]; subst. inversion A2 as [|? y2 ? c3 A3 A4]; subst.
    pose proof (alike_span _ _ A3) as Es. inversion H2; subst; auto. rewrite <- Es in *. lia.
  - inversion HA as [|? x2 ? c2 A1 A2]; subst. inversion A2 as [|? y2 ? c3 A3 A4]; subst.
    pose proof (alike_span _ _ A3) as Es. inversion H2; subst; [rewrite <- Es in *; lia|]. eapply IH; eauto.
Qed.
End Alike.

(** Trees built with plain calls, in any flavors, that compare equal: every query gives the same
    answer, up to identifiers, whatever the searches do beyond their contract.  Missing: trees made
    with [token_with] or [modify] (see the refutation). *)
Theorem C31_plain_partial : forall T (eqT : T -> T -> bool) F1 (ops1 : list (op T)) t1 l1 F2 ops2 t2 l2 bs1 bs2 s e,
  plain_run F1 ops1 t1 l1 -> plain_run F2 ops2 t2 l2 -> fl_indexes F1 = SVec -> fl_indexes F2 = SVec ->
  meets_contract bs1 -> meets_contract bs2 -> tree_eq F1 F2 eqT t1 t2 = Ok true ->
  (node_with_span bs1 t1 (Span s e) = Ok None /\ node_with_span bs2 t2 (Span s e) = Ok None) \/
  (exists n1 n2 r1 r2, node_with_span bs1 t1 (Span s e) = Ok (Some n1) /\ node_with_span bs2 t2 (Span s e) = Ok (Some n2) /\
    view n1 = rview r1 /\ view n2 = rview r2 /\ alike eqT r1 r2 /\ node_eq eqT n1 n2 = true).
Proof.
  intros T eqT F1 ops1 t1 l1 F2 ops2 t2 l2 bs1 bs2 s e H1 H2 I1 I2 B1 B2 E.
  destruct (C28_equality T eqT F1 ops1 t1 l1 F2 ops2 t2 l2 (proj1 (proj2 H1)) (proj1 (proj2 H2))) as (b & Eb & Hb).
  assert (b = true) as -> by congruence. destruct Hb as [Hb _]. specialize (Hb eq_refl). clear Eb.
  assert (Etot : total_of F1 ops1 = total_of F2 ops2).
  { destruct (plain_facts T F1 ops1 t1 l1 H1) as (L1 & _ & _). destruct (plain_facts T F2 ops2 t2 l2 H2) as (L2 & _ & _).
    clear -L1 L2 Hb. revert L1 L2. generalize (total_of F1 ops1) (total_of F2 ops2) 0.
    induction Hb as [|x y l1 l2 Hxy Hl IH]; intros e1 e2 s0 L1 L2; inversion L1; inversion L2; subst; auto.
    match goal with A : laid _ x ?m, B : laid _ y ?m' |- _ => assert (m = m') as <-;
      [apply laid_span in A; apply laid_span in B; rewrite (alike_span _ _ _ Hxy) in A; congruence|] end. eauto. }
  destruct (N.lt_ge_cases s (total_of F1 ops1)) as [Hs|Hs].
  - right. destruct (C30_position T F1 ops1 t1 l1 s H1 I1 Hs) as (x1 & ch1 & K1 & P1 & A1 & _).
    destruct (alike_ancestry eqT l1 l2 x1 ch1 Hb A1) as (x2 & ch2 & A2 & AX & AC).
    assert (K2 : r_kids x2 = []). { pose proof (alike_kids eqT _ _ AX) as X. rewrite K1 in X. inversion X. auto. }
    assert (P2 : holds_pos s x2) by (unfold holds_pos in *; rewrite <- (alike_span eqT _ _ AX); auto).
    destruct (C30_answer T F1 ops1 t1 l1 bs1 s e x1 ch1 H1 I1 B1 K1 P1 A1) as (n1 & r1 & E1 & R1 & V1 & _).
    destruct (C30_answer T F2 ops2 t2 l2 bs2 s e x2 ch2 H2 I2 B2 K2 P2 A2) as (n2 & r2 & E2 & R2 & V2 & _).
    pose proof (alike_enclosing eqT e ch1 r1 R1 ch2 r2 AC R2) as AR.
    exists n1, n2, r1, r2. repeat (split; [assumption|]).
    unfold node_eq. apply view_span in V1 as (S1 & _ & _ & D1). apply view_span in V2 as (S2 & _ & _ & D2).
    rewrite S1, S2, D1, D2. destruct AR; simpl in *. rewrite H. simpl. unfold span_eqb. rewrite !N.eqb_refl. auto.
  - left. split; eapply C30_none; eauto. lia.
Qed.
Print Assumptions C31_plain_partial.

(** Tokens with an explicit span are filed under their start, plain tokens under their end: equal
    trees, different answers. *)
Theorem C31_refuted : exists F (ops1 ops2 : list (op nat)) t1 l1 t2 l2 n,
  finished F ops1 t1 l1 /\ finished F ops2 t2 l2 /\ tree_eq F F Nat.eqb t1 t2 = Ok true /\
  node_with_range F std_search t1 3 4 = Ok (Some n) /\ node_with_range F std_search t2 3 4 = Ok None.
Proof.
  exists flavor_default, [OToken 1 3; OToken 2 3]%nat, [OTokenWith 1 (Span 0 3); OTokenWith 2 (Span 3 6)]%nat.
  exists (tree_so_far flavor_default [OToken 1 3; OToken 2 3]%nat), [Nd 0 KLeaf 1 (Span 0 3) []; Nd 1 KLeaf 2 (Span 3 6) []]%nat.
  exists (tree_so_far flavor_default [OTokenWith 1 (Span 0 3); OTokenWith 2 (Span 3 6)]%nat), [Nd 0 KLeaf 1 (Span 0 3) []; Nd 1 KLeaf 2 (Span 3 6) []]%nat.
  eexists. split; [compute_finished|]. split; [compute_finished|]. split; [vm_compute; reflexivity|]. split; vm_compute; reflexivity.
Qed.
Print Assumptions C31_refuted.

(** A wrapped document and the same document opened first, in different flavors. *)
Definition other_flavor : flavor := Flavor usize_max_32 IxUsize U8 SVec SVec.
Definition range_ops2 : list (op nat) :=
  [OOpen 10; OToken 1 3; OOpen 11; OToken 2 2; OOpen 12; OTokenEmpty 5; OToken 6 4; OClose; OClose; OToken 3 1; OClose]%nat.
Example C31_inhabited : exists t1 t2 l2,
  plain_run flavor_default range_ops t1 range_doc /\ plain_run other_flavor range_ops2 t2 l2 /\
  fl_indexes other_flavor = SVec /\
  tree_eq flavor_default other_flavor Nat.eqb t1 t2 = Ok true.
Proof.
  exists (tree_so_far flavor_default range_ops), (tree_so_far other_flavor range_ops2).
  eexists. split.
  { split; [discriminate|]. split; [|vm_compute; repeat split; intros; discriminate]. compute_finished. }
  split.
  { split; [discriminate|]. split; [|vm_compute; repeat split; intros; discriminate].
    split; [split; auto|]. split; [|split; vm_compute; reflexivity].
    do 2 eexists. split; [vm_compute; reflexivity|]. split; vm_compute; reflexivity. }
  split; vm_compute; reflexivity.
Qed.
