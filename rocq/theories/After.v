(** Lemmas for C71: [modify] sees values, nesting and the spans of childless nodes; a proper history for every reading. *)
From Coq Require Import Lia Permutation.
From Verif Require AllHist.
From Verif Require Import Base Pointer Index Tree Builder Hist Node Iter Edit Print Spec SpecMap SpecEdit SpecReads SpecMacro SpecAfter Rep Refine TreeRep Walk Modify PropsTree PropsMacro.
Open Scope nat_scope.

Section See.
Context {T : Type}.
Variables (F : flavor) (c : changeset) (t u : tree T).
Let ns := t_nodes t.
Let ms := t_nodes u.

Definition match_opt (o o' : option (node T)) : Prop := exists l k, reads t o l /\ reads u o' k /\ look_alike l k.
Definition matched (n m : node T) : Prop := match_opt (Some n) (Some m).
Definition on_stack (a b : node T * nat) : Prop := matched (fst a) (fst b) /\ snd a = snd b.
Definition same_refactor (r r' : refactor T) : Prop := Forall2 on_stack (r_parents r) (r_parents r') /\ r_prev r = r_prev r'.
Definition same_current (a b : option (node T * bool)) : Prop :=
  match a, b with None, None => True | Some (n, f), Some (m, g) => matched n m /\ f = g | _, _ => False end.

Lemma match_cases o o' : match_opt o o' -> match o, o' with None, None => True | Some n, Some m => matched n m | _, _ => False end.
Proof.
  intros (l & k & A & B & C). destruct o, o'; auto.
  - exists l, k. auto.
  - inversion A; subst. inversion B; subst. inversion C.
  - inversion A; subst. inversion B; subst. inversion C.
Qed.
Lemma matched_facts n m : matched n m -> node_value n = node_value m /\ has_children n = has_children m /\
  (has_children n = false -> node_span n = node_span m) /\ match_opt (node_first ns n) (node_first ms m) /\ match_opt (node_next ns n) (node_next ms m).
Proof.
  intros (l & k & A & B & C). inversion A as [|? k1 kids rest H1 H2 H3]; subst. inversion B as [|? k2 kids' rest' H1' H2' H3']; subst.
  inversion C as [|? ? ? ? ? ? ? ? C1|? ? ? ? ? ? ? ? ? ? ? ? ? C1 C2]; subst.
  - rewrite H1, H1'. repeat split; auto.
    + exists [], []. repeat split; auto. constructor.
    + exists rest, rest'. auto.
  - rewrite H1, H1'. repeat split; auto; try discriminate.
    + eexists _, _. split; [exact H2|]. split; [exact H2'|]. exact C1.
    + exists rest, rest'. auto.
Qed.
Lemma skip_same r r' n m f : same_refactor r r' -> matched n m ->
  same_refactor (fst (skip_subtree ns r n f)) (fst (skip_subtree ms r' m f)) /\ same_current (snd (skip_subtree ns r n f)) (snd (skip_subtree ms r' m f)).
Proof.
  intros Hr Hm. destruct (matched_facts n m Hm) as (_ & _ & _ & _ & Hx). apply match_cases in Hx. unfold skip_subtree.
  destruct (node_next ns n) as [n1|], (node_next ms m) as [m1|]; try (destruct Hx; fail).
  - split; [exact Hr|]. simpl. auto.
  - destruct Hr as [Hp Hv]. destruct r as [ps pv], r' as [ps' pv']. cbn [r_parents r_prev] in *. inversion Hp as [|[p i] [p' i'] qs qs' H1 H2]; subst; simpl.
    + split; [split; auto|auto].
    + destruct H1 as [H1 H3]. simpl in *. subst. split; [split; auto|auto].
Qed.
Lemma pop_same ps : forall ps' v, Forall2 on_stack ps ps' ->
  same_refactor (fst (step_pop ns ps v)) (fst (step_pop ms ps' v)) /\ same_current (snd (step_pop ns ps v)) (snd (step_pop ms ps' v)).
Proof.
  induction ps as [|[p i] ps IH]; intros ps' v H; inversion H as [|? [p' i'] ? qs' [H1 H3] H2]; subst; simpl.
  - split; [split; auto|auto].
  - simpl in *. subst. destruct (matched_facts p p' H1) as (_ & _ & _ & _ & Hx). apply match_cases in Hx.
    destruct (node_next ns p), (node_next ms p'); try (destruct Hx; fail); [|auto]. simpl. split; [split; auto|auto].
Qed.
Lemma step_same r r' n m i : same_refactor r r' -> matched n m ->
  same_refactor (fst (refactor_step ns r n i)) (fst (refactor_step ms r' m i)) /\ same_current (snd (refactor_step ns r n i)) (snd (refactor_step ms r' m i)).
Proof.
  intros [Hp Hv] Hm. destruct (matched_facts n m Hm) as (_ & _ & _ & Hf & Hx). apply match_cases in Hf. apply match_cases in Hx. unfold refactor_step.
  destruct (node_first ns n), (node_first ms m); try (destruct Hf; fail).
  - simpl. split; [|auto]. split; simpl; auto. constructor; auto. split; auto.
  - destruct (node_next ns n), (node_next ms m); try (destruct Hx; fail).
    + simpl. split; [split; auto|auto].
    + rewrite Hv. apply pop_same; auto.
Qed.
Lemma emit_same r r' out cur id n m first : same_refactor r r' -> matched n m ->
  let x := emit F r out cur id n first in let y := emit F r' out cur id m first in
  snd x = snd y /\ snd (fst (fst x)) = snd (fst (fst y)) /\ snd (fst x) = snd (fst y) /\ same_refactor (fst (fst (fst x))) (fst (fst (fst y))).
Proof.
  intros [Hp Hv] Hm. destruct (matched_facts n m Hm) as (V & H & S & _). cbv zeta. unfold emit. rewrite <- V, <- H.
  assert (Es : has_children n = true \/ node_span m = node_span n) by (destruct (has_children n); auto; right; symmetry; auto).
  destruct r as [ps pv], r' as [ps' pv']. cbn [r_parents r_prev] in *. subst pv'.
  assert (Sr : forall v, same_refactor (Refactor ps v) (Refactor ps' v)) by (intros v; split; auto).
  inversion Hp as [|[p i] [p' i'] qs qs' [H1 H3] H2]; subst; cbn [fst snd] in *; subst; destruct first; cbn [r_parents r_prev];
    (destruct Es as [Es|Es]; rewrite Es); cbn [negb andb];
    repeat match goal with |- context [match ?z with inl _ => _ | inr _ => _ end] => destruct z as [[[? ?] ?]|?] end;
    repeat match goal with |- context [tree_push F ?a ?b] => destruct (tree_push F a b) end; cbn [fst snd]; auto.
Qed.
Lemma loop_same fuel : forall r r' out cur a b, same_refactor r r' -> same_current a b ->
  modify_loop fuel F c ns r out cur a = modify_loop fuel F c ms r' out cur b.
Proof.
  assert (G : forall fuel, (forall r r' out cur a b, same_refactor r r' -> same_current a b -> modify_loop fuel F c ns r out cur a = modify_loop fuel F c ms r' out cur b) ->
     forall r r' out cur id n m first, same_refactor r r' -> matched n m ->
     match emit F r out cur id n first with
     | ((r, output, cursor), Ok _) => let '(r, current) := refactor_step ns r n id in modify_loop fuel F c ns r output cursor current
     | (_, Err e) => Err e | (_, Diverge) => Diverge end =
     match emit F r' out cur id m first with
     | ((r, output, cursor), Ok _) => let '(r, current) := refactor_step ms r m id in modify_loop fuel F c ms r output cursor current
     | (_, Err e) => Err e | (_, Diverge) => Diverge end).
  { clear fuel. intros fuel IH r r' out cur id n m first Hr Hm. destruct (emit_same r r' out cur id n m first Hr Hm) as (E1 & E2 & E3 & E4).
    destruct (emit F r out cur id n first) as [[[r1 o1] c1] x1], (emit F r' out cur id m first) as [[[r2 o2] c2] x2]. cbn [fst snd] in *. subst x2 o2 c2.
    destruct x1; auto. destruct (step_same r1 r2 n m id E4 Hm) as [S1 S2].
    destruct (refactor_step ns r1 n id) as [r3 cu3], (refactor_step ms r2 m id) as [r4 cu4]. cbn [fst snd] in *. auto. }
  induction fuel as [|fuel IH]; intros r r' out cur a b Hr Hc; destruct a as [[n f]|], b as [[m g]|]; try (destruct Hc; fail); auto.
  destruct Hc as [Hm <-]. cbn [modify_loop]. destruct (pointer_new F (tree_len out)) as [id|]; auto.
  destruct (changed c id); [|apply (G fuel IH); auto].
  destruct (skip_same r r' n m f Hr Hm) as [S1 S2].
  destruct (skip_subtree ns r n f) as [r1 [[n1 f1]|]], (skip_subtree ms r' m f) as [r2 [[m1 g1]|]]; cbn [fst snd] in *; try (destruct S2; fail); auto.
  destruct S2 as [Hm' <-]. apply (G fuel IH); auto.
Qed.
End See.

Lemma modify_sees T F c fuel (t u : tree T) l k : reads t (tree_first t) l -> reads u (tree_first u) k -> look_alike l k -> modify fuel F c t = modify fuel F c u.
Proof.
  intros A B C. unfold modify. rewrite (loop_same F c t u fuel _ (Refactor [] None) tree_new ix_EMPTY _ (option_map (fun n => (n, false)) (tree_first u))); auto.
  - split; simpl; auto.
  - assert (M : match_opt t u (tree_first t) (tree_first u)) by (exists l, k; auto). apply match_cases in M. destruct (tree_first t), (tree_first u); simpl; auto.
Qed.

(** ** A proper history with the same appearance *)
Fixpoint lit_of {T} (x : rose T) : lit T :=
  match x with
  | Nd _ _ d sp [] => LTokSpan d sp
  | Nd _ _ d _ kids => LNode d (map lit_of kids)
  end.
Section Again.
Context {T : Type}.
Variable F : flavor.
Fixpoint drawable (l : lit T) : Prop :=
  match l with
  | LTokSpan _ _ => True
  | LNode _ ls => fold_right (fun l P => drawable l /\ P) True ls
  | _ => False
  end.
Definition enough (l : lit T) : Prop := drawable l -> forall a, (N.of_nat (a_n a + lit_size l) <= int_max F (fl_width F))%N -> a_try F a (expand l) <> Some (Err Overflow).
Lemma enough_list ls : Forall enough ls -> fold_right (fun l P => drawable l /\ P) True ls -> forall a, (N.of_nat (a_n a + list_sum (map lit_size ls)) <= int_max F (fl_width F))%N ->
  a_try F a (flat_map expand ls) <> Some (Err Overflow).
Proof.
  induction 1 as [|l ls Hl Hs IH]; intros Hd a Ha; [discriminate|]. destruct Hd as [D1 D2]. cbn [map] in Ha. change (list_sum (lit_size l :: map lit_size ls)) with (lit_size l + list_sum (map lit_size ls)) in Ha.
  cbn [flat_map]. rewrite a_try_app. specialize (Hl D1 a ltac:(lia)). destruct (all_good F l a) as [E|(a' & x & E & D)]; [contradiction|].
  rewrite E. apply IH; auto. rewrite (dr_n _ _ _ _ _ D). lia.
Qed.
Lemma all_enough l : enough l.
Proof.
  induction l as [d|d len|d sp|d ls IH|d sp ls IH] using lit_ind'; intros Hd a Ha; try (destruct Hd; fail).
  - simpl. unfold a_token_with. assert (E : full F a = false) by (unfold full; apply N.leb_gt; simpl in Ha; lia). rewrite E. discriminate.
  - cbn [lit_size] in Ha. cbn [expand a_try a_step]. unfold a_open_with. assert (E : full F a = false) by (unfold full; apply N.leb_gt; lia). rewrite E. rewrite a_try_app.
    set (a0 := Doc _ _ _ _ _ _ _). pose proof (enough_list ls IH Hd a0 ltac:(subst a0; simpl; lia)) as G.
    destruct (good_list F ls ltac:(apply Forall_forall; intros; apply all_good) a0) as [E1|(a1 & xs & E1 & D)]; [contradiction|]. rewrite E1.
    cbn [a_try a_step]. unfold a_close. pose proof (dl_open _ _ _ _ _ D) as D3. destruct (a_open a1); [subst a0; simpl in D3; discriminate|discriminate].
Qed.
Lemma lit_of_facts (x : rose T) : drawable (lit_of x) /\ lit_size (lit_of x) = length (preorder x) /\
  Forall plain_call (expand (lit_of x)) /\ ((forall y, In y (preorder x) -> span_wf F (r_span y)) -> Forall (op_wf F) (expand (lit_of x))).
Proof.
  induction x as [i k d sp kids IH] using rose_ind'. destruct kids as [|y kids].
  - simpl. repeat split; auto; try (repeat constructor; fail). intros H. constructor; [|constructor]. simpl. apply (H (Nd i k d sp [])). auto.
  - change (lit_of (Nd i k d sp (y :: kids))) with (LNode d (map lit_of (y :: kids))). revert IH. generalize (y :: kids). clear y kids. intros kids IH.
    cbn [drawable lit_size expand]. assert (E : preorder (Nd i k d sp kids) = Nd i k d sp kids :: preorder_list kids) by reflexivity. rewrite E. split; [|split; [|split]].
    + clear E. induction IH as [|x r (H & _) Hr IHr]; simpl; auto.
    + cbn [length]. f_equal. unfold preorder_list. clear E. induction IH as [|x r (_ & H & _) Hr IHr]; auto. cbn [map flat_map]. rewrite app_length, <- IHr, <- H. auto.
    + constructor; [exact Logic.I|]. apply Forall_app. split; [|repeat constructor]. clear E. induction IH as [|x r (_ & _ & H & _) Hr IHr]; cbn [map flat_map]; auto. apply Forall_app; auto.
    + intros H. constructor; [exact Logic.I|]. apply Forall_app. split; [|repeat constructor].
      assert (H' : forall y, In y (preorder_list kids) -> span_wf F (r_span y)) by (intros y Hy; apply H; right; auto). clear E H.
      induction IH as [|x r (_ & _ & _ & H) Hr IHr]; cbn [map flat_map]; auto. unfold preorder_list in *. cbn [flat_map] in H'. apply Forall_app. split.
      * apply H. intros y Hy. apply H'. apply in_or_app. auto.
      * apply IHr. intros y Hy. apply H'. apply in_or_app. auto.
Qed.
Lemma depicted_alike : forall (l : list (rose T)) k, Forall2 (depicts F) (map lit_of l) k -> look_alike l k.
Proof.
  assert (G : forall n (l : list (rose T)) k, size_l l <= n -> Forall2 (depicts F) (map lit_of l) k -> look_alike l k).
  { induction n as [|n IH]; intros [|[i kd d sp kids] l] k Hn H; inversion H as [|? x' ? k' H1 H2]; subst; try constructor.
    - exfalso. rewrite size_l_cons, size_eq in Hn. lia.
    - rewrite size_l_cons, size_eq in Hn. cbn [r_kids] in Hn. destruct kids as [|y kids].
      + simpl in H1. inversion H1; subst. constructor. apply IH; auto. simpl in Hn. lia.
      + change (lit_of (Nd i kd d sp (y :: kids))) with (LNode d (map lit_of (y :: kids))) in H1. inversion H1 as [| | |? ? ? ? ks Hk|]; subst.
        inversion Hk as [|? z ? ks' Hz Hks]; subst. constructor; [|apply IH; auto; lia]. apply IH; [lia|]. exact Hk. }
  intros l k. apply (G (size_l l)). auto.
Qed.
End Again.

Lemma proper_history T F (l : list (rose T)) : vec_flavor F -> (N.of_nat (length (preorder_list l)) <= int_max F (fl_width F))%N ->
  (forall x, In x (preorder_list l) -> span_wf F (r_span x)) ->
  exists ops u k, Forall plain_call ops /\ Forall (op_wf F) ops /\ builds F ops u /\ document F ops k /\ look_alike l k /\ map r_id (preorder_list k) = seq 0 (tree_len u) /\
    (forall x, In x (preorder_list k) -> r_kind x <> KWrap).
Proof.
  intros HF Hn Hw. set (ls := map lit_of l). assert (X : (exists t, tree_macro F ls = Ok t)).
  { destruct (C41_tree T F ls HF) as [E|(t & k & E & _)]; [|eauto]. exfalso. unfold tree_macro in E.
    assert (D : fold_right (fun l P => drawable l /\ P) True ls) by (unfold ls; clear; induction l; simpl; auto; split; auto; apply (lit_of_facts (Flavor 0 IxU32 U32 SVec SVec))).
    assert (Hs : list_sum (map lit_size ls) = length (preorder_list l)).
    { unfold ls, preorder_list. clear. induction l as [|x l IH]; auto. cbn [map flat_map]. rewrite app_length, <- IH. destruct (lit_of_facts (Flavor 0 IxU32 U32 SVec SVec) x) as (_ & H & _). rewrite <- H. auto. }
    pose proof (enough_list F ls ltac:(apply Forall_forall; intros; apply all_enough) D doc_new ltac:(simpl; lia)) as G.
    destruct (good_list F ls ltac:(apply Forall_forall; intros; apply all_good) doc_new) as [E1|(a & xs & E1 & Dr)]; [contradiction|].
    destruct (try_refines F HF _ _ _ _ R_new E1) as (w & rs & E2 & HR & _). rewrite E2 in E. unfold build in E. rewrite (br_parent _ _ (r_builder _ _ HR)) in E.
    pose proof (dl_open _ _ _ _ _ Dr) as D3. simpl in D3. destruct (a_open a); [discriminate|discriminate]. }
  destruct X as (t & E). destruct (C41_tree T F ls HF) as [E'|(u & k & E' & Hb & Hd & Hk & Hi)]; rewrite E in E'; [discriminate|]. injection E' as <-.
  exists (flat_map expand ls), t, k. split; [|split].
  - unfold ls. clear. induction l; cbn [map flat_map]; auto. apply Forall_app. split; auto. apply (lit_of_facts (Flavor 0 IxU32 U32 SVec SVec)).
  - unfold ls. clear -Hw. unfold preorder_list in Hw. induction l as [|x l IH]; cbn [map flat_map]; auto. cbn [flat_map] in Hw. apply Forall_app. split.
    + apply (lit_of_facts F). intros y Hy. apply Hw. apply in_or_app. auto.
    + apply IH. intros y Hy. apply Hw. apply in_or_app. auto.
  - split; auto. split; auto. split; [eapply depicted_alike; eauto|]. split; auto. clear -Hk. assert (G : forall n (ls : list (lit T)) k, size_l k <= n -> Forall2 (depicts F) ls k -> forall x, In x (preorder_list k) -> r_kind x <> KWrap).
    { clear. induction n as [|n IH]; intros ls [|[i kd d sp kids] k] Hn H x Hx; try (destruct Hx; fail); rewrite size_l_cons, size_eq in Hn; cbn [r_kids] in Hn; [lia|].
      inversion H as [|? ? ? ? H1 H2]; subst. apply in_pre_cons in Hx as [->|[Hx|Hx]].
      - inversion H1; subst; discriminate.
      - inversion H1 as [| | |? ? ? ? ? Hk|? ? ? ? ? ? Hk]; subst; try (destruct Hx; fail); (eapply IH; [|exact Hk|exact Hx]; lia).
      - eapply IH; [|exact H2|exact Hx]. lia. }
    eauto.
Qed.

(** ** The calculus of edits sees no more *)
Lemma edited_sees T c top forced n s (xs xs' : list (rose T)) n' s' up : edited c top forced n s xs xs' n' s' up -> forall ys, look_alike xs ys -> edited c top forced n s ys xs' n' s' up.
Proof.
  induction 1 as [top forced n s|top forced n s i k d sp xs xs' n2 s2 up H1 H2 IH|top forced n s i k d sp y kids kids' n1 s1 xs xs' n2 s2 up H1 H2 IH2 H3 IH3
    |top forced n s i k d sp y kids kids' n1 s1 xs xs' n2 s2 up H1 H2 IH2 H3 IH3|top n s x y xs out n2 s2 up H1 H2 IH|n s x H1|n s x H1]; intros ys Hy.
  - inversion Hy; subst. constructor.
  - inversion Hy; subst. constructor; auto.
  - inversion Hy; subst. eapply ed_node; eauto.
  - inversion Hy; subst. eapply ed_again; eauto.
  - inversion Hy as [|? ? ? ? ? ? ? ? C|? ? ? ? ? ? ? ? ? ? ? ? ? C1 C]; subst; inversion C; subst; apply ed_skip; auto; apply IH; auto.
  - inversion Hy as [|? ? ? ? ? ? ? ? C|? ? ? ? ? ? ? ? ? ? ? ? ? C1 C]; subst; inversion C; subst; apply ed_last; auto.
  - inversion Hy as [|? ? ? ? ? ? ? ? C|? ? ? ? ? ? ? ? ? ? ? ? ? C1 C]; subst; inversion C; subst; apply ed_up; auto.
Qed.

(** ** Trees of the same pattern have the same links *)
Inductive twins {T} : list (rose T) -> list (rose T) -> Prop :=
| tw_nil : twins [] []
| tw_cons i k k' d d' sp sp' kids kids' rest rest' : k <> KWrap -> k' <> KWrap -> twins kids kids' -> twins rest rest' ->
    twins (Nd i k d sp kids :: rest) (Nd i k' d' sp' kids' :: rest').
Lemma twins_hd T (l k : list (rose T)) o : twins l k -> hd_id l o = hd_id k o.
Proof. destruct 1; auto. Qed.
Lemma twins_last T (f : rose T -> nat) l k : (forall x, r_kind x <> KWrap -> f x = r_id x) -> twins l k -> forall o, last_of f l o = last_of f k o.
Proof.
  intros Hf. induction 1 as [|i kd kd' d d' sp sp' kids kids' rest rest' H1 H2 H3 _ H4 IH]; intros o; auto. unfold last_of. cbn [fold_left]. rewrite !Hf by auto. apply IH.
Qed.
Lemma lp_plain T (x : rose T) : r_kind x <> KWrap -> lp x = r_id x.
Proof. destruct x as [? [] ? ? ?]; simpl; auto. congruence. Qed.
Lemma rlp_plain T (x : rose T) : r_kind x <> KWrap -> rlp x = r_id x.
Proof. destruct x as [? [] ? ? ?]; simpl; auto. congruence. Qed.
Lemma twins_flat T (l k : list (rose T)) : twins l k -> forall par prev nxt,
  Forall2 (fun a b => fst a = fst b /\ AllHist.ptrs_eq (snd a) (snd b)) (flat_list par prev l nxt) (flat_list par prev k nxt).
Proof.
  induction 1 as [|i kd kd' d d' sp sp' kids kids' rest rest' H1 H2 H3 IH3 H4 IH]; intros par prev nxt; [constructor|].
  cbn [flat_list]. rewrite !flat_eq. cbn [app]. constructor.
  - cbn [fst snd]. split; auto. unfold AllHist.ptrs_eq. cbn. rewrite (twins_hd _ _ _ nxt H4), (twins_hd _ _ _ None H3). repeat split; auto.
    unfold last_field. destruct kd; try congruence; destruct kd'; try congruence; symmetry; apply twins_last; auto; apply lp_plain.
  - apply Forall2_app; [apply IH3|]. apply IH.
Qed.
Lemma twins_ptrs T (t u : tree T) l k : tree_rep t l -> tree_rep u k -> twins l k ->
  AllHist.same_ptrs (t_nodes u) (t_nodes t) /\ t_first t = t_first u /\ t_last t = t_last u.
Proof.
  intros A B H. split; [|split].
  - assert (El : length (t_nodes t) = length (t_nodes u)).
    { rewrite (tr_length _ _ A), (tr_length _ _ B). unfold preorder_list. pose proof (twins_flat _ _ _ H None None None) as G. assert (Lg : forall A B (R : A -> B -> Prop) a b, Forall2 R a b -> length a = length b) by (clear; induction 1; simpl; auto). apply Lg in G. clear Lg.
      rewrite <- (map_length fst), flat_list_ids, <- (map_length fst (flat_list _ _ k _)), flat_list_ids, !ids_l_preorder, !map_length in G. exact G. }
    split; auto. intros i x E. assert (Hi : In i (ids_l l)). { eapply Permutation_in; [symmetry; apply (tr_perm _ _ A)|]. apply in_seq. split; [lia|]. apply nth_error_Some. congruence. }
    rewrite <- (flat_list_ids l None None None) in Hi. apply in_map_iff in Hi as ([j y] & <- & Hy). cbn [fst] in *.
    pose proof (proj1 (Forall_forall _ _) (tr_rep _ _ A) _ Hy) as Ea. cbn [fst snd] in Ea. rewrite Ea in E. injection E as ->.
    pose proof (twins_flat _ _ _ H None None None) as G. clear -Hy G B. pose proof (tr_rep _ _ B) as RB. revert RB Hy. unfold rep.
    induction G as [|[a p] [b q] L K [G1 G2] _ IH]; intros RB Hy; [destruct Hy|]. inversion RB as [|? ? R1 R2]; subst. destruct Hy as [Hy|Hy]; auto.
    cbn [fst snd] in *. injection Hy as -> ->. subst. exists q. split; auto. destruct G2 as (P1 & P2 & P3 & P4 & P5). unfold AllHist.ptrs_eq. auto 8.
  - rewrite (tr_first _ _ A), (tr_first _ _ B). apply twins_hd; auto.
  - rewrite (tr_last _ _ A), (tr_last _ _ B). apply twins_last; auto. apply rlp_plain.
Qed.
Lemma app_inj_len A (a b c d : list A) : a ++ b = c ++ d -> length a = length c -> a = c /\ b = d.
Proof. revert c. induction a as [|x a IH]; intros [|y c] E L; try discriminate; auto. injection E as -> E. injection L as L. destruct (IH c E L). subst. auto. Qed.
(** The same nesting, numbered alike. *)
Fixpoint blank {T} (x : rose T) : rose T := match x with Nd i k d _ kids => Nd i k d (Span 0 0) (map blank kids) end.
Lemma blank_pre T (x : rose T) : preorder (blank x) = map blank (preorder x).
Proof.
  induction x as [i k d sp kids IH] using rose_ind'. simpl. f_equal. induction IH as [|y r Hy _ IHr]; simpl; auto. rewrite map_app, Hy, IHr. auto.
Qed.
Lemma blank_pre_list T (l : list (rose T)) : preorder_list (map blank l) = map blank (preorder_list l).
Proof. unfold preorder_list. induction l as [|x l IH]; simpl; auto. rewrite map_app, blank_pre, IH. auto. Qed.
Lemma alike_twins T : forall n (l k : list (rose T)), size_l l <= n -> look_alike (map blank l) k -> map r_id (preorder_list l) = map r_id (preorder_list k) ->
  (forall x, In x (preorder_list l) -> r_kind x <> KWrap) -> (forall x, In x (preorder_list k) -> r_kind x <> KWrap) -> twins l k.
Proof.
  induction n as [|n IH]; intros [|[i kd d sp kids] l] k Hn H Hi Hl Hk; inversion H as [|? i' ? kd' ? ? ? rest' H1|? i' ? kd' ? ? sp' ? y' ? kids' ? rest' H1 H2]; subst; try constructor;
    rewrite size_l_cons, size_eq in Hn; cbn [r_kids] in Hn; try lia.
  - destruct kids; [|discriminate]. assert (Ei : i = i' /\ map r_id (preorder_list l) = map r_id (preorder_list rest')) by (simpl in Hi; injection Hi; auto). destruct Ei as [-> Ei].
    constructor; [apply (Hl (Nd i' kd d sp [])); simpl; auto|apply (Hk (Nd i' kd' d (Span 0 0) [])); simpl; auto|constructor|].
    apply IH; auto; try lia; intros x Hx; [apply Hl|apply Hk]; simpl; auto.
  - destruct kids as [|z kids]; [discriminate|]. set (ks := z :: kids) in *. set (ks' := y' :: kids') in *.
    assert (H1' : look_alike (map blank ks) ks') by (subst ks ks'; cbn [map] in *; repeat match goal with E : _ :: _ = blank _ :: _ |- _ => injection E as -> -> | E : blank _ :: _ = _ :: _ |- _ => injection E as <- <- end; exact H1). clearbody ks ks'.
    unfold preorder_list in *. cbn [flat_map map] in Hi. rewrite !map_app in Hi. change (preorder (Nd i kd d sp ks)) with (Nd i kd d sp ks :: preorder_list ks) in Hi.
    change (preorder (Nd i' kd' d sp' ks')) with (Nd i' kd' d sp' ks' :: preorder_list ks') in Hi. cbn [map app r_id] in Hi. injection Hi as -> Hi.
    assert (El : forall n (a b : list (rose T)), size_l a <= n -> look_alike (map blank a) b -> length (map r_id (preorder_list a)) = length (map r_id (preorder_list b))).
    { clear. induction n as [|n IH]; intros [|[i kd d sp kids] l] k Hn H; inversion H as [|? i' ? kd' ? ? ? rest' H1|? i' ? kd' ? ? sp' ? y' ? kids' ? rest' H1 H2]; subst; auto;
        rewrite size_l_cons, size_eq in Hn; cbn [r_kids] in Hn; try lia.
      - destruct kids; [|discriminate]. specialize (IH l rest' ltac:(lia) H1). simpl. rewrite !map_length in *. unfold preorder_list in *. rewrite IH. auto.
      - destruct kids as [|z kids]; [discriminate|]. rewrite !map_length in *.
        pose proof (IH (z :: kids) (y' :: kids') ltac:(lia)) as A. pose proof (IH l rest' ltac:(lia) H2) as B. rewrite !map_length in A, B.
        assert (H1' : look_alike (map blank (z :: kids)) (y' :: kids')) by (cbn [map] in *; repeat match goal with E : _ :: _ = blank _ :: _ |- _ => injection E as -> -> | E : blank _ :: _ = _ :: _ |- _ => injection E as <- <- end; exact H1). specialize (A H1').
        change (preorder_list (Nd i kd d sp (z :: kids) :: l)) with (Nd i kd d sp (z :: kids) :: preorder_list (z :: kids) ++ preorder_list l).
        change (preorder_list (Nd i' kd' d sp' (y' :: kids') :: rest')) with (Nd i' kd' d sp' (y' :: kids') :: preorder_list (y' :: kids') ++ preorder_list rest').
        cbn [length]. rewrite !app_length, A, B. auto. }
    apply app_inj_len in Hi as [E1 E2]; [|apply (El (size_l ks)); auto].
    constructor.
    + apply (Hl (Nd i' kd d sp ks)). simpl. auto.
    + apply (Hk (Nd i' kd' d sp' ks')). simpl. auto.
    + apply IH; auto; try lia; intros x Hx; [apply Hl|apply Hk]; cbn [flat_map]; apply in_or_app; left; right; auto.
    + apply IH; auto; try lia; intros x Hx; [apply Hl|apply Hk]; cbn [flat_map]; apply in_or_app; right; auto.
Qed.
