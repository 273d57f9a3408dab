(** C60: identifiers and spans as keys of maps. *)
From Coq Require Import Lia Sorted.
From Verif Require Import Base Pointer Index Tree Builder Hist Node Iter Compare Spec SpecSpan SpecCompare StepFacts PropsSafe PropsArith PropsTree PropsSpan Demo.

(** ** Identifiers *)

(** Identifiers compare like the positions they stand for; equal ones, and only those, hash the same. *)
Theorem C60_pointers : forall F v w p q, target_ok F -> usize_ok F v -> usize_ok F w -> ptr_new F v = Some p -> ptr_new F w = Some q ->
  ptr_cmp p q = N.compare v w /\ ptr_cmp p q = N.compare (ptr_get F p) (ptr_get F q) /\ (ptr_cmp p q = Eq <-> p = q) /\ (ptr_hash p = ptr_hash q <-> p = q).
Proof.
  intros F v w p q Ht Hv Hw Ep Eq_. destruct (C11_round_trip F v p Ht Hv Ep) as (Gp & _). destruct (C11_round_trip F w q Ht Hw Eq_) as (Gq & _).
  assert (P : p = (v + 1)%N /\ q = (w + 1)%N).
  { unfold ptr_new in *. destruct (N.leb_spec v (int_max F (fl_width F))); [|discriminate]. destruct (N.leb_spec w (int_max F (fl_width F))); [|discriminate].
    assert (K : forall x r, (x <= int_max F (fl_width F))%N -> (if ((x + 1) mod (int_max F (fl_width F) + 1) =? 0)%N then None else Some ((x + 1) mod (int_max F (fl_width F) + 1))%N) = Some r -> r = (x + 1)%N).
    { intros x r Hx E. destruct (N.eq_dec x (int_max F (fl_width F))) as [->|Hn].
      - rewrite N.mod_same in E by lia. discriminate.
      - rewrite N.mod_small in E by lia. destruct (N.eqb_spec (x + 1) 0); [discriminate|congruence]. }
    split; eauto. }
  destruct P as [-> ->]. unfold ptr_cmp, ptr_hash. rewrite Gp, Gq.
  assert (E : N.compare (v + 1) (w + 1) = N.compare v w) by (destruct (N.compare_spec v w), (N.compare_spec (v + 1) (w + 1)); auto; lia).
  split; [auto|]. split; [auto|]. split; [apply N.compare_eq_iff|]. split; congruence.
Qed.
Print Assumptions C60_pointers.

(** ** Spans *)
Lemma ix_cmp_spec F a b : (fl_index F = IxEmpty -> a = 0 /\ b = 0)%N -> ix_cmp F a b = N.compare a b.
Proof. unfold ix_cmp. intros H. destruct (fl_index F); auto. destruct (H eq_refl) as [-> ->]. auto. Qed.

(** The start decides, and the end if the starts are equal. *)
Theorem C60_spans : forall F a b, span_wf F a -> span_wf F b ->
  (span_cmp F a b = Lt <-> (s_start a < s_start b \/ s_start a = s_start b /\ s_end a < s_end b)%N) /\
  (span_cmp F a b = Eq <-> a = b) /\ (span_cmp F a b = Eq <-> span_eqb a b = true) /\
  span_cmp F b a = CompOpp (span_cmp F a b) /\ (span_hash F a = span_hash F b <-> a = b).
Proof.
  intros F [s e] [s' e'] [A1 A2] [B1 B2]. cbn [s_start s_end] in *.
  assert (Z : fl_index F = IxEmpty -> (s = 0 /\ e = 0 /\ s' = 0 /\ e' = 0)%N) by (intros HE; unfold ix_max in *; rewrite HE in *; lia).
  assert (C : forall x y x' y', (x = s /\ y = e /\ x' = s' /\ y' = e' \/ x = s' /\ y = e' /\ x' = s /\ y' = e)%N ->
    span_cmp F (Span x y) (Span x' y') = match N.compare x x' with Eq => N.compare y y' | c => c end).
  { intros x y x' y' K. unfold span_cmp. cbn [s_start s_end]. rewrite !ix_cmp_spec by (intros HE; apply Z in HE; lia). auto. }
  rewrite (C s e s' e') by auto. rewrite (C s' e' s e) by auto.
  rewrite (C34_eq (Span s e) (Span s' e')).
  assert (E : (match N.compare s s' with Eq => N.compare e e' | c => c end) = Eq <-> Span s e = Span s' e').
  { destruct (N.compare_spec s s'); [|split; [discriminate|intros X; injection X; lia]..].
    rewrite N.compare_eq_iff. split; [congruence|intros X; injection X; auto]. }
  split; [|split; [exact E|split; [exact E|split]]].
  - cbn [s_start s_end]. destruct (N.compare_spec s s'); [destruct (N.compare_spec e e')|..]; split; try discriminate; auto; lia.
  - rewrite (N.compare_antisym s s'), (N.compare_antisym e e'). destruct (N.compare s s'); auto.
  - unfold span_hash, ix_hash. cbn [s_start s_end]. destruct (fl_index F) eqn:EF; try (simpl; split; congruence).
    destruct (Z eq_refl) as (-> & -> & -> & ->). split; auto.
Qed.
Print Assumptions C60_spans.

Theorem C60_transitive : forall F a b c, span_wf F a -> span_wf F b -> span_wf F c ->
  span_cmp F a b <> Gt -> span_cmp F b c <> Gt -> span_cmp F a c <> Gt.
Proof.
  intros F a b c Ha Hb Hc H1 H2 H3.
  destruct (C60_spans F a b Ha Hb) as (L1 & E1 & _). destruct (C60_spans F b c Hb Hc) as (L2 & E2 & _). destruct (C60_spans F c a Hc Ha) as (L3 & E3 & _ & O3 & _).
  assert (A : span_cmp F c a = Lt) by (destruct (C60_spans F a c Ha Hc) as (_ & _ & _ & O & _); rewrite O, H3; auto).
  apply L3 in A. destruct (span_cmp F a b) eqn:X; [|clear E1|congruence]; destruct (span_cmp F b c) eqn:Y; try congruence;
    repeat match goal with H : Eq = Eq <-> _ |- _ => pose proof (proj1 H eq_refl); clear H | H : Lt = Lt <-> _ |- _ => pose proof (proj1 H eq_refl); clear H end; subst; lia.
Qed.
Print Assumptions C60_transitive.

(** ** Histories *)

(** Of two identifiers from one builder the one returned earlier is the smaller: they count the nodes, whatever else was called. *)
Theorem C60_insertion : forall T F (ops : list (op T)), vec_flavor F ->
  StronglySorted (fun i j => ptr_cmp (ptr_new_unchecked F (N.of_nat i)) (ptr_new_unchecked F (N.of_nat j)) = Lt) (ids_of (run_outs F ops)) /\
  ids_of (run_outs F ops) = seq 0 (tree_len (tree_so_far F ops)).
Proof.
  intros T F ops HF.
  assert (E : ids_of (run_outs F ops) = seq 0 (tree_len (tree_so_far F ops))).
  { rewrite <- (rev_involutive ops). induction (rev ops) as [|o l IH]; [auto|]. simpl.
    pose proof (C10_fresh T F (rev l) o HF) as H. cbv zeta in H. destruct (run_snoc T F (rev l) o) as [_ R]. rewrite R.
    unfold ids_of in *. rewrite flat_map_app, IH. cbn [flat_map]. rewrite app_nil_r.
    destruct (snd (step F (run_world F (rev l)) o)); try (rewrite app_nil_r, H; reflexivity).
    destruct H as (-> & -> & _). rewrite seq_S. auto. }
  split; [|auto]. rewrite E. pose proof (C12_size T F ops HF) as Hs. revert Hs. generalize (tree_len (tree_so_far F ops)). intros n Hn.
  assert (G : forall m s, (N.of_nat (s + m) <= int_max F (fl_width F))%N -> StronglySorted (fun i j => ptr_cmp (ptr_new_unchecked F (N.of_nat i)) (ptr_new_unchecked F (N.of_nat j)) = Lt) (seq s m)).
  { induction m as [|m IH]; intros s Hm; simpl; constructor; [apply IH; lia|]. apply Forall_forall. intros j Hj. apply in_seq in Hj.
    unfold ptr_cmp, ptr_new_unchecked. rewrite !(N.mod_small (N.of_nat _)) by lia. rewrite !N.mod_small by lia. apply N.compare_lt_iff. lia. }
  apply G. auto.
Qed.
Print Assumptions C60_insertion.

(** In a tree built with plain calls the childless nodes are in the order of their spans. *)
Theorem C60_sorted : forall T F (ops : list (op T)) t l, plain_run F ops t l ->
  exists items, enumerates (walk_next F (t_nodes t)) (tree_walk t) items /\ StronglySorted (span_le F) (map node_span (filter childless items)).
Proof.
  intros T F ops t l H. destruct (C14_tile T F ops t l H) as (items & E & H2). exists items. split; [auto|].
  assert (HE : fl_index F <> IxEmpty) by apply H. clear E H. revert H2. generalize 0%N (map node_span (filter childless items)) (total_of F ops). clear items.
  intros s xs e. revert s. induction xs as [|[a b] xs IH]; intros s H; constructor; simpl in H; destruct H as (-> & H1 & H2); [eauto|].
  assert (K : forall ys u, tile u ys e -> (b <= u)%N -> Forall (fun y => b <= s_start y /\ s_start y <= s_end y)%N ys).
  { clear. induction ys as [|[c d] ys IH]; intros u H Hu; constructor; simpl in *; destruct H as (-> & H1 & H2); [lia|]. eapply IH; eauto. lia. }
  eapply Forall_impl; [|eapply K; [eauto|lia]]. intros [c d] [H3 H4]. cbn [s_start s_end] in *. unfold span_le, span_cmp, ix_cmp. cbn [s_start s_end].
  destruct (fl_index F); try congruence; (destruct (N.compare_spec s c); [|discriminate|lia]; destruct (N.compare_spec b d); try discriminate; lia).
Qed.
Print Assumptions C60_sorted.

(** One-byte identifiers; two spans that start together; the demo tree. *)
Example C60_inhabited : target_ok flavor_default /\ ptr_new (Flavor usize_max_64 IxU32 U8 SVec SVec) 254 = Some 255%N /\ ptr_new (Flavor usize_max_64 IxU32 U8 SVec SVec) 3 = Some 4%N /\
  span_cmp flavor_default (Span 2 5) (Span 2 9) = Lt /\ span_wf flavor_default (Span 2 9) /\
  length (ids_of (run_outs flavor_default demo_ops)) = tree_len demo_tree /\ plain_run flavor_default plain_demo_ops plain_demo_tree plain_demo_doc.
Proof.
  split; [right; auto|]. split; [vm_compute; reflexivity|]. split; [vm_compute; reflexivity|]. split; [reflexivity|]. split; [split; vm_compute; discriminate|].
  split; [vm_compute; reflexivity|]. apply plain_inhabited.
Qed.
