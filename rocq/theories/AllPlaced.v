(** All histories, also those that misuse checkpoints: every node stays reachable through [first]
    and [next], in exactly one way. *)
From Coq Require Import Lia QArith Lqa.
From Verif Require Import Base Pointer Index Tree Builder Hist Node Iter Rep Refine AllHist StepFacts.
Open Scope nat_scope.

Section Placed.
Context {T : Type}.
Variable F : flavor.
Hypothesis HF : vec_flavor F.
Implicit Types (ns : list (links T)) (l : links T) (b : builder T) (h : heap) (t : tree T).

(** The first node among the children of [o], or among the roots. *)
Definition level_first t (o : option nat) : option nat :=
  match o with
  | Some p => match nth_error (t_nodes t) p with Some l => l_first l | None => None end
  | None => t_first t
  end.

Record placed b : Prop := PL {
  pl_some : forall i l, nth_error (t_nodes (b_tree b)) i = Some l -> level_first (b_tree b) (l_parent l) <> None;
  pl_head : forall i l, nth_error (t_nodes (b_tree b)) i = Some l -> l_prev l = None -> level_first (b_tree b) (l_parent l) = Some i;
  pl_first : forall o y, level_first (b_tree b) o = Some y ->
    exists l, nth_error (t_nodes (b_tree b)) y = Some l /\ l_prev l = None /\ l_parent l = o;
  pl_sibling : b_sibling b = None <-> level_first (b_tree b) (b_parent b) = None;
  pl_root : 0 < tree_len (b_tree b) -> t_first (b_tree b) <> None;
  pl_open : forall p, b_parent b = Some p -> level_first (b_tree b) (Some p) = None -> tree_len (b_tree b) = S p;
}.

Definition firsts ns : list (option nat) := map l_first ns.
Lemma firsts_nth ns i : match nth_error ns i with Some l => l_first l | None => None end =
  match nth_error (firsts ns) i with Some o => o | None => None end.
Proof. unfold firsts. rewrite nth_error_map. destruct (nth_error ns i); auto. Qed.
Lemma firsts_upd ns i f g : (forall l, l_first (f l) = g (l_first l)) -> firsts (upd ns i f) = upd (firsts ns) i g.
Proof.
  intros H. unfold firsts. revert i; induction ns as [|x ns IH]; intros [|i]; simpl; auto.
  - rewrite H. auto.
  - rewrite IH. auto.
Qed.
Lemma upd_id {A} (v : list A) i : upd v i (fun x => x) = v.
Proof. revert i; induction v as [|x v IH]; intros [|i]; simpl; auto. f_equal; auto. Qed.
Lemma firsts_keep ns i f : (forall l, l_first (f l) = l_first l) -> firsts (upd ns i f) = firsts ns.
Proof. intros H. rewrite (firsts_upd ns i f (fun x => x)); auto. apply upd_id. Qed.
Lemma restructure_firsts fuel p x : forall ns, firsts (fst (restructure fuel p x ns)) = firsts ns.
Proof.
  revert x. induction fuel as [|fuel IH]; intros x ns; simpl; auto.
  destruct (nth_error ns x) as [l|]; simpl; auto. destruct (l_next l); simpl.
  - rewrite IH. apply firsts_keep. auto.
  - apply firsts_keep. auto.
Qed.

Definition or_new (n : nat) (o : option nat) : option nat := match o with None => Some n | Some _ => o end.

Lemma insert_firsts b d sp b' id : insert F d sp b = (b', Ok id) ->
  firsts (t_nodes (b_tree b')) = opt_upd (b_parent b) (or_new (tree_len (b_tree b))) (firsts (t_nodes (b_tree b)) ++ [None]) /\
  t_first (b_tree b') = match b_parent b with None => or_new (tree_len (b_tree b)) (t_first (b_tree b)) | Some _ => t_first (b_tree b) end.
Proof.
  unfold insert. rewrite pointer_new_full. destruct (_ <=? _)%N; [discriminate|]. unfold tree_push. rewrite (proj1 HF).
  cbn [storage_push option_map b_tree set_b_sibling b_parent b_sibling]. intros E. injection E as <- _.
  set (n := tree_len (b_tree b)). cbn [b_tree set_b_tree].
  assert (E : firsts (t_nodes (b_tree b)) ++ [None] = firsts (t_nodes (b_tree b) ++ [Links d sp (b_parent b) (b_sibling b) None None None])).
  { unfold firsts. rewrite map_app. reflexivity. }
  rewrite E. cbv zeta.
  assert (G : forall (t0 : tree T), t_first (match b_sibling b with Some i => tree_upd i (set_l_next (Some n)) t0 | None => t0 end) = t_first t0 /\
     firsts (t_nodes (match b_sibling b with Some i => tree_upd i (set_l_next (Some n)) t0 | None => t0 end)) = firsts (t_nodes t0)).
  { intros t0. destruct (b_sibling b); simpl; split; auto. apply firsts_keep. auto. }
  rewrite (proj1 (G _)), (proj2 (G _)). clear G. destruct (b_parent b) as [p|]; simpl.
  - split; auto. apply firsts_upd. intros l. destruct (l_first l) eqn:El; simpl; rewrite ?El; auto.
  - destruct (t_first (b_tree b)) eqn:Ef; simpl; auto.
Qed.

Lemma level_first_upd ns (m : list (option nat)) i o g : m = opt_upd o g (firsts ns) -> i < length ns ->
  match nth_error m i with Some x => x | None => None end =
  (if opt_nat_eqb o (Some i) then g (match nth_error ns i with Some l => l_first l | None => None end)
   else match nth_error ns i with Some l => l_first l | None => None end).
Proof.
  intros -> Hi. destruct (nth_in ns i Hi) as [l E]. rewrite opt_upd_nth. unfold firsts. rewrite nth_error_map, E. simpl.
  destruct (opt_nat_eqb o (Some i)); auto.
Qed.

Lemma opt_eqb o o' : opt_nat_eqb o o' = true <-> o = o'.
Proof.
  unfold opt_nat_eqb. destruct o as [u|], o' as [v|]; try (split; [discriminate|congruence]); try tauto.
  destruct (Nat.eqb_spec u v); split; congruence.
Qed.
Lemma opt_eqb_refl o : opt_nat_eqb o o = true.
Proof. apply opt_eqb. auto. Qed.

(** ** What the calls do to it *)
Lemma insert_levels b d sp b' : (forall p, b_parent b = Some p -> p < tree_len (b_tree b)) ->
  insert F d sp b = (b', Ok (tree_len (b_tree b))) ->
  (forall o, (forall i, o = Some i -> i < tree_len (b_tree b)) ->
     level_first (b_tree b') o = if opt_nat_eqb o (b_parent b) then or_new (tree_len (b_tree b)) (level_first (b_tree b) o) else level_first (b_tree b) o) /\
  level_first (b_tree b') (Some (tree_len (b_tree b))) = None.
Proof.
  intros Hp E. destruct (insert_firsts _ _ _ _ _ E) as [E1 E2]. set (n := tree_len (b_tree b)) in *. split.
  - intros [i|] Hi; simpl.
    + specialize (Hi i eq_refl). rewrite firsts_nth, E1.
      assert (G : nth_error (opt_upd (b_parent b) (or_new n) (firsts (t_nodes (b_tree b)) ++ [None])) i =
                  nth_error (opt_upd (b_parent b) (or_new n) (firsts (t_nodes (b_tree b)))) i).
      { rewrite !opt_upd_nth, nth_error_app1; auto. unfold firsts. rewrite map_length. auto. }
      rewrite G. rewrite (level_first_upd (t_nodes (b_tree b)) _ i (b_parent b) (or_new n) eq_refl Hi).
      unfold opt_nat_eqb. destruct (b_parent b) as [p|]; auto. rewrite Nat.eqb_sym. auto.
    + rewrite E2. destruct (b_parent b); auto.
  - unfold level_first. rewrite firsts_nth, E1, opt_upd_nth.
    destruct (opt_nat_eqb (b_parent b) (Some n)) eqn:G; [apply opt_eqb_some, Hp in G; lia|].
    unfold n, tree_len. rewrite nth_error_app2 by (unfold firsts; rewrite map_length; auto). unfold firsts. rewrite map_length, Nat.sub_diag. auto.
Qed.

Lemma level_in_range b o y : level_first (b_tree b) o = Some y -> forall i, o = Some i -> i < tree_len (b_tree b).
Proof. intros H i ->. simpl in H. destruct (nth_error (t_nodes (b_tree b)) i) eqn:E; [|discriminate]. eapply nth_lt; eauto. Qed.

(** The three facts about the table, after an insertion. *)
Lemma insert_table3 h b d sp b' : ok h b -> placed b -> insert F d sp b = (b', Ok (tree_len (b_tree b))) -> insert_ok b b' ->
  (forall i l, nth_error (t_nodes (b_tree b')) i = Some l -> level_first (b_tree b') (l_parent l) <> None) /\
  (forall i l, nth_error (t_nodes (b_tree b')) i = Some l -> l_prev l = None -> level_first (b_tree b') (l_parent l) = Some i) /\
  (forall o y, level_first (b_tree b') o = Some y -> exists l, nth_error (t_nodes (b_tree b')) y = Some l /\ l_prev l = None /\ l_parent l = o) /\
  level_first (b_tree b') (Some (tree_len (b_tree b))) = None /\ level_first (b_tree b') (b_parent b) <> None /\
  (t_first (b_tree b) <> None -> t_first (b_tree b') <> None) /\ (b_parent b = None -> t_first (b_tree b') <> None) /\
  tree_len (b_tree b') = S (tree_len (b_tree b)).
Proof.
  intros Hok [P1 P2 P3 P4 P6 P7] E HI. destruct (ok_bounds _ _ Hok) as [Hp Hs].
  destruct (insert_levels _ _ _ _ Hp E) as [L1 L2]. destruct HI as ((HL & H1 & H2) & Ep & _).
  set (n := tree_len (b_tree b)) in *. change (length (t_nodes (b_tree b))) with n in *.
  assert (Hpn : level_first (b_tree b') (b_parent b) <> None).
  { rewrite L1, opt_eqb_refl by auto. unfold or_new. destruct (level_first (b_tree b) (b_parent b)); discriminate. }
  assert (Up : forall o y, level_first (b_tree b) o = Some y -> level_first (b_tree b') o = Some y).
  { intros o y H. rewrite L1 by (eapply level_in_range; eauto). rewrite H. destruct (opt_nat_eqb o (b_parent b)); auto. }
  assert (Old : forall i l', nth_error (t_nodes (b_tree b')) i = Some l' -> i = n \/ i < n /\
     exists l, nth_error (t_nodes (b_tree b)) i = Some l /\ l_parent l' = l_parent l /\ l_prev l' = l_prev l).
  { intros i l' E'. assert (i < S n) by (rewrite <- HL; eapply nth_lt; eauto).
    destruct (Nat.eq_dec i n) as [->|Hne]; auto. right. split; [lia|]. destruct (H1 _ _ E') as (l & El & A & B & _); [lia|]. eauto. }
  split; [|split; [|split; [|split; [|split; [|split; [|split]]]]]]; auto.
  - intros i l' E'. destruct (Old _ _ E') as [->|(Hi & l & El & -> & _)].
    + destruct (H2 _ E') as (-> & _). auto.
    + specialize (P1 _ _ El). destruct (level_first (b_tree b) (l_parent l)) eqn:G; [|tauto]. rewrite (Up _ _ G). discriminate.
  - intros i l' E' Hn. destruct (Old _ _ E') as [->|(Hi & l & El & -> & Hpr)].
    + destruct (H2 _ E') as (-> & Hpr & _). rewrite L1, opt_eqb_refl by auto. rewrite Hpr in Hn. apply P4 in Hn. rewrite Hn. auto.
    + apply Up, P2; auto. congruence.
  - intros o y H.
    assert (Ho : o = Some n \/ forall i, o = Some i -> i < n).
    { destruct o as [i|]; [|right; intros; discriminate]. simpl in H. destruct (nth_error (t_nodes (b_tree b')) i) eqn:G; [|discriminate].
      destruct (Old _ _ G) as [->|[? _]]; auto. right. intros j Ej. injection Ej as <-. auto. }
    destruct Ho as [->|Ho]; [congruence|]. rewrite L1 in H by auto.
    assert (Keep : level_first (b_tree b) o = Some y -> exists l, nth_error (t_nodes (b_tree b')) y = Some l /\ l_prev l = None /\ l_parent l = o).
    { intros G. destruct (P3 _ _ G) as (l & El & A & B). assert (Hy : y < n) by (eapply nth_lt; eauto).
      destruct (nth_in (t_nodes (b_tree b')) y) as [l' E']; [lia|]. exists l'. split; auto.
      destruct (Old _ _ E') as [->|(_ & l0 & El0 & -> & ->)]; [lia|]. assert (l0 = l) by congruence. subst. auto. }
    destruct (opt_nat_eqb o (b_parent b)) eqn:G; auto. apply opt_eqb in G. subst o.
    destruct (level_first (b_tree b) (b_parent b)) as [z|] eqn:Gz; simpl in H; auto. injection H as <-.
    destruct (nth_in (t_nodes (b_tree b')) n) as [l' E']; [lia|]. exists l'. split; auto.
    destruct (H2 _ E') as (-> & -> & _). split; auto. apply P4. auto.
  - intros H. specialize (L1 None ltac:(intros; discriminate)). 
    change (level_first (b_tree b') None) with (t_first (b_tree b')) in L1. rewrite L1. simpl level_first.
    unfold or_new. destruct (t_first (b_tree b)); [|tauto]. destruct (opt_nat_eqb None (b_parent b)); discriminate.
  - intros H. rewrite H in Hpn. exact Hpn.
Qed.

Lemma leaf_placed h b d sp b' : ok h b -> placed b -> insert F d sp b = (b', Ok (tree_len (b_tree b))) -> insert_ok b b' ->
  placed (set_b_sibling (Some (tree_len (b_tree b))) b').
Proof.
  intros Hok HP E HI. destruct (insert_table3 _ _ _ _ _ Hok HP E HI) as (A1 & A2 & A3 & A4 & A5 & A6 & A7 & A8).
  destruct HI as (_ & Ep & _). constructor; simpl; auto; rewrite ?Ep.
  - split; [discriminate|]. tauto.
  - intros _. destruct (Nat.eq_dec (tree_len (b_tree b)) 0) as [Hz|Hz].
    + apply A7. destruct (b_parent b) as [p|] eqn:G; auto. apply (proj1 (ok_bounds _ _ Hok)) in G. lia.
    + apply A6, (pl_root _ HP). lia.
  - intros p Hp H. rewrite Hp in A5. tauto.
Qed.

Lemma opened_placed h b d sp b' : ok h b -> placed b -> insert F d sp b = (b', Ok (tree_len (b_tree b))) -> insert_ok b b' ->
  placed (set_b_parent (Some (tree_len (b_tree b))) b').
Proof.
  intros Hok HP E HI. destruct (insert_table3 _ _ _ _ _ Hok HP E HI) as (A1 & A2 & A3 & A4 & A5 & A6 & A7 & A8).
  destruct HI as (_ & Ep & Es & _). constructor; simpl; auto.
  - rewrite Es. tauto.
  - intros _. destruct (Nat.eq_dec (tree_len (b_tree b)) 0) as [Hz|Hz].
    + apply A7. destruct (b_parent b) as [p|] eqn:G; auto. apply (proj1 (ok_bounds _ _ Hok)) in G. lia.
    + apply A6, (pl_root _ HP). lia.
  - intros p Hp _. injection Hp as <-. auto.
Qed.

Lemma same_levels t t' : same_ptrs (t_nodes t) (t_nodes t') -> t_first t' = t_first t -> forall o, level_first t' o = level_first t o.
Proof.
  intros HS Ef [i|]; simpl; auto. destruct (nth_error (t_nodes t') i) as [l'|] eqn:E'.
  - destruct (proj2 HS _ _ E') as (l & E & _ & _ & _ & G & _). rewrite E. auto.
  - destruct (nth_error (t_nodes t) i) as [l|] eqn:E; auto. apply nth_error_None in E'. apply nth_lt in E. rewrite (proj1 HS) in E'. lia.
Qed.

Lemma placed_ext b b' : placed b -> same_ptrs (t_nodes (b_tree b)) (t_nodes (b_tree b')) ->
  t_first (b_tree b') = t_first (b_tree b) -> b_parent b' = b_parent b -> b_sibling b' = b_sibling b -> placed b'.
Proof.
  intros [P1 P2 P3 P4 P6 P7] HS Ef Ep Es. pose proof (same_levels _ _ HS Ef) as L.
  constructor; unfold tree_len in *; rewrite ?Ep, ?Es, ?(proj1 HS), ?Ef.
  - intros i l' E'. destruct (proj2 HS _ _ E') as (l & E & -> & _). rewrite L. eauto.
  - intros i l' E'. destruct (proj2 HS _ _ E') as (l & E & -> & -> & _). rewrite L. eauto.
  - intros o y H. rewrite L in H. destruct (P3 _ _ H) as (l & E & A & B).
    destruct (same_ptrs_fwd _ _ _ _ HS E) as (l' & E' & G1 & G2 & _). exists l'. split; auto. split; congruence.
  - rewrite L. auto.
  - auto.
  - intros p. rewrite L. auto.
Qed.

(** [close_at] on a node that exists. *)
Lemma close_firsts h b a c d osp h' b' lid id : ok h b -> nth_error h a = Some c -> nth_error (t_nodes (b_tree b)) (c_node c) = Some lid ->
  close_at_gen F a d osp h b = (h', b', Ok id) ->
  firsts (t_nodes (b_tree b')) = opt_upd (l_parent lid) (fun o => if opt_nat_eqb o (Some (c_node c)) then Some (tree_len (b_tree b)) else o)
    (firsts (t_nodes (b_tree b))) ++ [Some (c_node c)] /\
  t_first (b_tree b') = if opt_nat_eqb (t_first (b_tree b)) (Some (c_node c)) then Some (tree_len (b_tree b)) else t_first (b_tree b).
Proof.
  intros Hok Ec El. unfold close_at_gen. rewrite Ec. destruct (negb _); [discriminate|]. rewrite pointer_new_full.
  destruct (_ <=? _)%N; [discriminate|]. rewrite El. set (n := tree_len (b_tree b)). set (x := c_node c) in *. cbv zeta.
  set (t0 := tree_upd x (fun l => set_l_prev None (set_l_parent (Some n) l)) (b_tree b)).
  assert (D0 : firsts (t_nodes t0) = firsts (t_nodes (b_tree b))) by (unfold t0; simpl; apply firsts_keep; auto).
  assert (DR : firsts (fst (match l_next lid with
        | Some next => restructure (S (tree_len t0)) n next (t_nodes t0)
        | None => (t_nodes t0, Ok (x, s_end (l_span lid))) end)) = firsts (t_nodes (b_tree b))).
  { destruct (l_next lid); simpl; auto. rewrite <- D0. apply (restructure_firsts (S (tree_len t0))). }
  destruct (match l_next lid with
        | Some next => restructure (S (tree_len t0)) n next (t_nodes t0)
        | None => (t_nodes t0, Ok (x, s_end (l_span lid))) end) as [m r].
  cbn [fst] in DR. destruct r as [[last e]|e|]; [|discriminate..].
  unfold tree_push. rewrite (proj1 HF). cbn [storage_push option_map]. intros E. injection E as <- <- <-.
  cbn [b_tree set_b_tree set_b_sibling t_nodes set_t_nodes t_first].
  assert (Et : t_first t0 = t_first (b_tree b)) by reflexivity.
  split.
  - unfold firsts at 1. rewrite map_app. f_equal. rewrite <- DR.
    assert (FX : firsts (match l_parent lid with Some p => upd m p (fun l => let l0 := if opt_nat_eqb (l_first l) (Some x) then set_l_first (Some n) l else l in
        if opt_nat_eqb (l_last l0) (Some x) then set_l_last (Some n) l0 else l0) | None => m end) =
      opt_upd (l_parent lid) (fun o => if opt_nat_eqb o (Some x) then Some n else o) (firsts m)).
    { destruct (l_parent lid) as [p|]; auto. simpl. apply firsts_upd. intros l. destruct (opt_nat_eqb (l_first l) (Some x)); simpl;
        destruct (opt_nat_eqb (l_last l) (Some x)); simpl; auto. }
    rewrite <- FX. change (map l_first) with firsts.
    destruct (l_parent lid) as [par|], (l_prev lid) as [prev|]; cbn [t_first tree_upd set_t_nodes]; rewrite Et;
        destruct (opt_nat_eqb (t_first (b_tree b)) (Some x)); cbn [t_nodes set_t_first set_t_nodes tree_upd]; auto;
        apply firsts_keep; auto.
  - destruct (l_parent lid) as [par|], (l_prev lid) as [prev|]; cbn [t_first tree_upd set_t_nodes]; rewrite ?Et;
        destruct (opt_nat_eqb (t_first (b_tree b)) (Some x)); simpl; auto.
Qed.

Lemma wrapped_placed h b a c d osp h' b' lid : ok h b -> placed b -> nth_error h a = Some c -> c_parent c = b_parent b ->
  nth_error (t_nodes (b_tree b)) (c_node c) = Some lid ->
  close_at_gen F a d osp h b = (h', b', Ok (tree_len (b_tree b))) ->
  wrapped h a b (c_node c) lid h' b' -> placed b'.
Proof.
  intros Hok HP Ea Hpar Eid E (C & z & Hch & (HL & H1 & H2) & -> & Ep & Es & _ & _).
  destruct (close_firsts _ _ _ _ _ _ _ _ _ _ Hok Ea Eid E) as [F1 F2].
  destruct HP as [P1 P2 P3 P4 P6 P7]. destruct Hok as (lo & hi & cap & stk & HB & HC).
  pose proof (bi_table _ _ _ _ _ HB) as HT.
  set (n := tree_len (b_tree b)) in *. change (length (t_nodes (b_tree b))) with n in *. set (x := c_node c) in *.
  assert (Hx : x < n) by (eapply nth_lt; eauto).
  assert (Lr : forall i l p, nth_error (t_nodes (b_tree b)) i = Some l -> l_parent l = Some p -> p < n).
  { intros i l p El Hp. apply (li_parent _ _ _ _ _ _ (HT _ _ El) p Hp). }
  (* levels *)
  assert (Ln : level_first (b_tree b') (Some n) = Some x).
  { unfold level_first. rewrite firsts_nth, F1. rewrite nth_error_app2; rewrite opt_upd_length; unfold firsts; rewrite map_length; [|unfold n; auto].
    unfold n, tree_len. rewrite Nat.sub_diag. auto. }
  assert (L : forall o, (forall i, o = Some i -> i < n) -> level_first (b_tree b') o =
     if opt_nat_eqb (level_first (b_tree b) o) (Some x) then Some n else level_first (b_tree b) o).
  { intros [i|] Hi; [|simpl; rewrite F2; auto]. specialize (Hi i eq_refl). unfold level_first at 1. rewrite firsts_nth, F1.
    rewrite nth_error_app1 by (rewrite opt_upd_length; unfold firsts; rewrite map_length; auto).
    rewrite (level_first_upd (t_nodes (b_tree b)) _ i (l_parent lid) _ eq_refl Hi). fold (level_first (b_tree b) (Some i)).
    destruct (opt_nat_eqb (l_parent lid) (Some i)) eqn:G; auto.
    destruct (opt_nat_eqb (level_first (b_tree b) (Some i)) (Some x)) eqn:G'; auto. apply opt_eqb in G'.
    destruct (P3 _ _ G') as (l & El & _ & Hl). assert (l = lid) by congruence. subst l. rewrite Hl, opt_eqb_refl in G. discriminate. }
  assert (Ls : forall o, (forall i, o = Some i -> i < n) -> level_first (b_tree b) o <> None -> level_first (b_tree b') o <> None).
  { intros o Ho H. rewrite L by auto. destruct (opt_nat_eqb (level_first (b_tree b) o) (Some x)); [intros X; discriminate X|auto]. }
  assert (Old : forall i l', nth_error (t_nodes (b_tree b')) i = Some l' -> i = n \/ i < n /\
     exists l, nth_error (t_nodes (b_tree b)) i = Some l /\ l_parent l' = (if in_dec Nat.eq_dec i C then Some n else l_parent l) /\
       l_prev l' = (if Nat.eqb i x then None else l_prev l)).
  { intros i l' E'. assert (i < S n) by (rewrite <- HL; eapply nth_lt; eauto).
    destruct (Nat.eq_dec i n) as [->|Hne]; auto. right. split; [lia|]. destruct (H1 _ _ E') as (l & El & A & B & _); [lia|]. eauto. }
  assert (HnC : forall i l, nth_error (t_nodes (b_tree b)) i = Some l -> l_prev l = None -> i <> x -> ~ In i C).
  { intros i l El Hp Hi Hc. destruct (chain_pred _ _ _ _ _ _ _ HT Hch i Hc) as [?|(c' & l' & _ & E' & G)]; congruence. }
  pose proof (chain_head _ _ _ _ Hch) as HxC.
  assert (Hlev : level_first (b_tree b') (b_parent b') <> None).
  { rewrite Ep. apply Ls.
    - intros i Hi. eapply bi_parent_lt; eauto.
    - destruct (b_parent b) as [p|] eqn:G; [|apply P6; lia]. intros Hn. specialize (P7 p eq_refl Hn).
      destruct (HC a c Ea) as [_ Hcell]. destruct (Hcell p Hpar) as [A _]. fold x in A. lia. }
  constructor.
  - intros i l' E'. destruct (Old _ _ E') as [->|(Hi & l & El & Gp & _)].
    + destruct (H2 _ E') as (-> & _). apply Ls; eauto.
    + rewrite Gp. destruct (in_dec Nat.eq_dec i C); [rewrite Ln; discriminate|]. apply Ls; eauto.
  - intros i l' E' Hn. destruct (Old _ _ E') as [->|(Hi & l & El & Gp & Gq)].
    + destruct (H2 _ E') as (-> & Hq & _). rewrite Hq in Hn. rewrite L by eauto. rewrite (P2 _ _ Eid Hn), opt_eqb_refl. auto.
    + rewrite Gp. rewrite Gq in Hn. destruct (Nat.eqb_spec i x) as [->|Hne].
      * destruct (in_dec Nat.eq_dec x C); tauto.
      * destruct (in_dec Nat.eq_dec i C) as [Hc|Hc]; [exfalso; eapply HnC; eauto|]. rewrite L by eauto. rewrite (P2 _ _ El Hn).
        destruct (opt_nat_eqb (Some i) (Some x)) eqn:G; auto. apply opt_eqb in G. congruence.
  - intros o y H.
    assert (Ho : o = Some n \/ forall i, o = Some i -> i < n).
    { destruct o as [i|]; [|right; intros; discriminate]. simpl in H. destruct (nth_error (t_nodes (b_tree b')) i) eqn:G; [|discriminate].
      destruct (Old _ _ G) as [->|[? _]]; auto. right. intros j Ej. injection Ej as <-. auto. }
    destruct Ho as [->|Ho].
    + assert (y = x) by congruence. subst y. destruct (nth_in (t_nodes (b_tree b')) x) as [l' E']; [lia|]. exists l'. split; auto.
      destruct (Old _ _ E') as [->|(_ & l & El & -> & ->)]; [lia|]. rewrite Nat.eqb_refl. destruct (in_dec Nat.eq_dec x C); tauto.
    + rewrite L in H by auto. destruct (opt_nat_eqb (level_first (b_tree b) o) (Some x)) eqn:G.
      * injection H as <-. apply opt_eqb in G. destruct (P3 _ _ G) as (l & El & A & B). assert (l = lid) by congruence. subst l.
        destruct (nth_in (t_nodes (b_tree b')) n) as [l' E']; [lia|]. exists l'. split; auto. destruct (H2 _ E') as (-> & -> & _). auto.
      * destruct (P3 _ _ H) as (l & El & A & B). assert (Hy : y <> x) by (intros ->; rewrite H, opt_eqb_refl in G; discriminate).
        assert (y < n) by (eapply nth_lt; eauto).
        destruct (nth_in (t_nodes (b_tree b')) y) as [l' E']; [lia|]. exists l'. split; auto.
        destruct (Old _ _ E') as [->|(_ & l0 & El0 & -> & ->)]; [lia|]. assert (l0 = l) by congruence. subst l0.
        destruct (Nat.eqb_spec y x); [congruence|]. destruct (in_dec Nat.eq_dec y C) as [Hc|Hc]; auto. exfalso; eapply HnC; eauto.
  - rewrite Es. split; [discriminate|tauto].
  - intros _. apply (Ls None); [intros; discriminate|]. apply P6. lia.
  - intros p Hp Hn. rewrite Hp in Hlev. tauto.
Qed.

(** ** Histories *)
Definition wplaced (w : world T) : Prop := wok w /\ placed (w_builder w).

Lemma token_placed h b d len : ok h b -> placed b -> placed (fst (token F d len b)).
Proof.
  intros H HP. unfold token.
  assert (G : forall sp b0, ok h b0 -> placed b0 ->
    let r := (match insert F d sp b0 with
    | (b, Ok id) =>
      let b := set_b_sibling (Some id) b in
      if len_is_empty F len then (b, Ok id)
      else
        match tree_push_index F (b_cursor b) id (b_tree b) with
        | None => (b, Err FlavorError)
        | Some t => (set_b_tree t b, Ok id)
        end
    | r => r
    end) in placed (fst r)).
  { intros sp b0 H0 HP0. destruct (ok_bounds _ _ H0) as [Hp Hs].
    destruct (insert_cases F HF b0 d sp Hp Hs) as [->|(b' & E & HI)]; [simpl; auto|]. rewrite E.
    pose proof (leaf_placed _ _ _ _ _ H0 HP0 E HI) as HO. cbv zeta. destruct (len_is_empty F len); [simpl; auto|].
    destruct (push_index_cases F HF (b_tree (set_b_sibling (Some (tree_len (b_tree b0))) b'))
       (b_cursor (set_b_sibling (Some (tree_len (b_tree b0))) b')) (tree_len (b_tree b0))) as (t' & Et & E1 & E2 & E3).
    rewrite Et. simpl. eapply placed_ext; [exact HO|..]; simpl; auto. apply same_ptrs_eq; auto. }
  cbv zeta in G. cbv zeta. destruct (len_is_empty F len) eqn:El.
  - apply G; auto.
  - destruct (ix_checked_add_len F (b_cursor b) len) as [c|]; [|simpl; auto].
    apply G.
    + eapply ok_ext; [exact H|..]; simpl; auto. apply same_ptrs_refl.
    + eapply placed_ext; [exact HP|..]; simpl; auto. apply same_ptrs_refl.
Qed.

Lemma token_with_placed h b d sp : ok h b -> placed b -> placed (fst (token_with F d sp b)).
Proof.
  intros H HP. unfold token_with. destruct (ok_bounds _ _ H) as [Hp Hs].
  destruct (insert_cases F HF b d sp Hp Hs) as [->|(b' & Ei & HI)]; [simpl; auto|]. rewrite Ei.
  pose proof (leaf_placed _ _ _ _ _ H HP Ei HI) as HO.
  set (b1 := set_b_sibling (Some (tree_len (b_tree b))) b') in *. cbv zeta.
  destruct (push_index_cases F HF (b_tree b1) (s_start sp) (tree_len (b_tree b))) as (t' & E & E1 & E2 & E3).
  rewrite E. simpl. destruct (b_parent b') as [p|] eqn:Ep.
  - eapply placed_ext; [exact HO|..]; simpl; auto. rewrite E1. apply same_ptrs_upd. intros l. apply (ptrs_span (fun l => span_join (l_span l) sp)).
  - eapply placed_ext; [exact HO|..]; simpl; auto. apply same_ptrs_eq; auto.
Qed.

Lemma open_placed h b d sp : ok h b -> placed b -> placed (fst (open_with F d sp b)).
Proof.
  intros H HP. destruct (ok_bounds _ _ H) as [Hp Hs]. unfold open_with.
  destruct (insert_cases F HF b d sp Hp Hs) as [->|(b' & E & HI)]; simpl; auto. rewrite E. simpl. eapply opened_placed; eauto.
Qed.

Lemma close_placed h b : ok h b -> placed b -> placed (fst (close b)).
Proof.
  intros (lo & hi & cap & stk & HB & HC) HP. unfold close.
  destruct HB as [H1 H2 H3 H4 H5 H6].
  destruct (b_parent b) as [head|] eqn:Ep; [|simpl; auto].
  destruct stk as [|h0 stk]; [discriminate|]. simpl in H5. injection H5 as <-.
  destruct H4 as [[l [E [El En]]] [Hd Hs]]. cbv zeta. cbn [b_tree set_b_parent set_b_sibling]. rewrite E.
  assert (G : placed (set_b_parent (l_parent l) (set_b_sibling (Some head) (set_b_parent None b)))).
  { destruct HP as [P1 P2 P3 P4 P6 P7]. pose proof (P1 _ _ E) as Hl. constructor; simpl; auto.
    - split; [discriminate|tauto].
    - intros p Hp Hn. rewrite Hp in Hl. simpl in Hl. tauto. }
  destruct (l_parent l) as [id|] eqn:Eid.
  - destruct (li_parent _ _ _ _ _ _ (H1 _ _ E) id Eid) as (Hlt & _). destruct (nth_in _ _ Hlt) as [lp Elp]. rewrite Elp.
    simpl. eapply placed_ext; [exact G|..]; simpl; auto. apply same_ptrs_upd. intros l1. apply (ptrs_span (fun q : links T => span_join (l_span q) (l_span l))).
  - simpl. eapply placed_ext; [exact G|..]; simpl; auto. apply same_ptrs_refl.
Qed.

Lemma close_at_placed h b a c d osp : ok h b -> placed b -> nth_error h a = Some c ->
  placed (snd (fst (close_at_gen F a d osp h b))).
Proof.
  intros H HP Ea. destruct (ok_bounds _ _ H) as [Hp Hs].
  destruct (nth_error (t_nodes (b_tree b)) (c_node c)) as [l|] eqn:El.
  - destruct (close_at_cases F HF h b a c d osp H Ea) as [(e & -> & He)|[(b' & E & HI)|(lid & h' & b' & Hpa & Eid & E & HW)]]; auto.
    + exfalso. destruct (close_firsts _ _ _ _ _ _ _ _ _ _ H Ea El E) as [F1 _]. simpl in F1.
      destruct HI as ((HL & _ & H2) & _). destruct (nth_in (t_nodes (b_tree b')) (length (t_nodes (b_tree b)))) as [l' E']; [lia|].
      destruct (H2 _ E') as (_ & _ & _ & G & _). apply (f_equal (fun v => nth_error v (length (t_nodes (b_tree b))))) in F1.
      unfold firsts at 1 in F1. rewrite nth_error_map, E' in F1. simpl in F1. rewrite G in F1.
      rewrite nth_error_app2 in F1; rewrite opt_upd_length in *; unfold firsts in *; rewrite map_length in *; auto. rewrite Nat.sub_diag in F1. discriminate.
    + rewrite E. simpl. eapply wrapped_placed; eauto.
  - unfold close_at_gen. rewrite Ea. destruct (negb _); auto. destruct (pointer_new F _); auto. rewrite El.
    destruct (insert_cases F HF b d (match osp with Some sp => sp | None => span_point (b_cursor b) end) Hp Hs) as [->|(b' & E & HI)]; auto.
    rewrite E. pose proof (leaf_placed _ _ _ _ _ H HP E HI) as HO. destruct (Nat.eqb_spec (tree_len (b_tree b)) (c_node c)) as [Hn|Hn]; auto.
    exfalso. destruct H as (lo & hi & cap & stk & HB & HC). destruct (HC a c Ea) as [Hle _]. apply nth_error_None in El. unfold tree_len in *. lia.
Qed.

Lemma step_placed w o : wplaced w -> placed (w_builder (fst (step F w o))).
Proof.
  intros [[H He] HP]. destruct w as [h b env]. simpl in H, He, HP. destruct o; simpl.
  - change (open F d b) with (open_with F d (span_point (b_cursor b)) b).
    pose proof (open_placed h b d (span_point (b_cursor b)) H HP) as A. destruct (open_with F d _ b) as [b' r]. exact A.
  - pose proof (open_placed h b d sp H HP) as A. destruct (open_with F d sp b) as [b' r]. exact A.
  - pose proof (close_placed h b H HP) as A. destruct (close b) as [b' r]. exact A.
  - pose proof (token_placed h b d len H HP) as A. destruct (token F d len b) as [b' r]. exact A.
  - unfold token_empty. pose proof (token_placed h b d len_EMPTY H HP) as A. destruct (token F d len_EMPTY b) as [b' r]. exact A.
  - pose proof (token_with_placed h b d sp H HP) as A. destruct (token_with F d sp b) as [b' r]. exact A.
  - assert (A : placed (snd (fst (checkpoint F h b)))).
    { unfold checkpoint. destruct (pointer_new F _); auto.
      assert (G : forall x, placed (set_b_checkpoint x b)) by (intros x; eapply placed_ext; [exact HP|..]; simpl; auto; apply same_ptrs_refl).
      destruct (b_checkpoint b); simpl; auto. destruct (nth_error h _); simpl; auto. destruct (_ && _); simpl; auto. }
    destruct (checkpoint F h b) as [[h' b'] r]. destruct r; exact A.
  - destruct (nth_error env k) as [a|] eqn:Ek; [|auto].
    destruct (nth_in h a) as [c Ec]; [apply He; eapply nth_error_In; eauto|].
    unfold close_at. pose proof (close_at_placed h b a c d None H HP Ec) as A. destruct (close_at_gen F a d None h b) as [[h' b'] r]. exact A.
  - destruct (nth_error env k) as [a|] eqn:Ek; [|auto].
    destruct (nth_in h a) as [c Ec]; [apply He; eapply nth_error_In; eauto|].
    unfold close_at_with. pose proof (close_at_placed h b a c d (Some sp) H HP Ec) as A. destruct (close_at_gen F a d (Some sp) h b) as [[h' b'] r]. exact A.
  - eapply placed_ext; [exact HP|..]; simpl; auto. apply same_ptrs_refl.
Qed.

Lemma placed_new : placed (w_builder (T := T) world_new).
Proof.
  constructor.
  - intros [|i] l E; discriminate.
  - intros [|i] l E; discriminate.
  - intros [[|i]|] y; discriminate.
  - split; auto.
  - intros H. exfalso. cbn in H. inversion H.
  - discriminate.
Qed.

Lemma run_placed ops : wplaced (fst (run F world_new ops)).
Proof.
  assert (G : forall w, wplaced w -> wplaced (fst (run F w ops))).
  { induction ops as [|o ops IH]; simpl; intros w H; auto.
    assert (A : wplaced (fst (step F w o))) by (split; [apply step_ok; auto; apply H|apply step_placed; auto]).
    destruct (step F w o) as [w1 r1]. simpl in A. specialize (IH w1 A). destruct (run F w1 ops) as [w2 rs]. auto. }
  apply G. split; [apply wok_new|apply placed_new].
Qed.
End Placed.
