(** Range queries on trees built with plain calls. *)
From Coq Require Import Lia.
From Verif Require Import Base Pointer Index Tree Builder Hist Node Iter Query Spec SpecEq SpecSpan SpecRange Rep Refine TreeRep
  Enum WalkThms Nav DocInv Layout.
Local Open Scope N_scope.

(** ** The search of the standard library *)
Section Search.
Variable l : list (N * nat).
Definition key (i : nat) : N := fst (nth i l (0, 0%nat)).

Lemma ascending_cons p (m : list (N * nat)) : ascending (p :: m) -> ascending m /\ forall q, In q m -> fst p < fst q.
Proof.
  revert p; induction m as [|q m IH]; intros p H; [split; auto; intros q []|].
  destruct H as [H1 H2]. split; auto. intros r [<-|Hr]; auto.
  destruct (IH q H2) as [_ G]. specialize (G r Hr). lia.
Qed.
Lemma ascending_key : ascending l -> forall i j, (i < j < length l)%nat -> key i < key j.
Proof.
  unfold key. induction l as [|p m IH]; intros H i j Hij; simpl in Hij; [lia|].
  destruct (ascending_cons p m H) as [H1 H2]. destruct j as [|j]; [lia|]. destruct i as [|i].
  - simpl. apply H2. apply nth_In. lia.
  - simpl. apply IH; auto. lia.
Qed.

(** Invariant of the loop: the keys before [base] are at most [x], those from [base + size] on are greater. *)
Lemma loop_spec x (HA : ascending l) : forall fuel base size, (size <= fuel)%nat -> (1 <= size)%nat ->
  (base + size <= length l)%nat ->
  (base = 0%nat \/ key base <= x) -> (forall i, (base + size <= i < length l)%nat -> x < key i) ->
  let b := std_search_loop fuel l x base size in
  (b < length l)%nat /\ (b = 0%nat \/ key b <= x) /\ (forall i, (S b <= i < length l)%nat -> x < key i).
Proof.
  induction fuel as [|fuel IH]; intros base size Hf H1 H2 H3 H4; [lia|]. cbn [std_search_loop].
  destruct (Nat.leb_spec size 1) as [Hs|Hs].
  - cbv zeta. split; [lia|]. split; auto. intros i Hi. apply H4. lia.
  - pose proof (Nat.div_lt size 2 ltac:(lia) ltac:(lia)) as Hd1.
    assert (Hd2 : (1 <= size / 2)%nat) by (change 1%nat with (2 / 2)%nat; apply Nat.div_le_mono; lia).
    fold (key (base + size / 2)). destruct (N.ltb_spec x (key (base + size / 2))) as [Hlt|Hge].
    + apply IH; try lia; auto. intros i Hi. destruct (Nat.eq_dec i (base + size / 2)) as [->|Hne]; auto.
      assert (Hle : (2 * (size / 2) <= size)%nat) by (apply Nat.mul_div_le; lia).
      destruct (Nat.lt_ge_cases i (base + size / 2)).
      * lia.
      * pose proof (ascending_key HA (base + size / 2) i ltac:(lia)). lia.
    + apply IH; try lia; auto. intros i Hi. apply H4. lia.
Qed.
End Search.

Lemma nth_key (l : list (N * nat)) i k id : nth_error l i = Some (k, id) -> key l i = k /\ (i < length l)%nat.
Proof.
  intros E. assert (i < length l)%nat by (apply nth_error_Some; congruence). split; auto.
  unfold key. erewrite nth_error_nth; eauto. auto.
Qed.

Lemma std_contract : meets_contract std_search.
Proof.
  intros l x HA. unfold std_search. destruct l as [|p m] eqn:El.
  { split; [simpl; lia|]. intros [|i] k id E; discriminate. }
  rewrite <- El in *.
  assert (HL : (1 <= length l)%nat) by (rewrite El; simpl; lia).
  destruct (loop_spec l x HA (length l) 0%nat (length l)) as (B1 & B2 & B3); try lia; auto.
  set (b := std_search_loop (length l) l x 0 (length l)) in *. fold (key l b).
  destruct (N.eqb_spec (key l b) x) as [He|He].
  - destruct (nth_error l b) as [[k id]|] eqn:Eb; [|apply nth_error_None in Eb; lia].
    exists id. apply nth_key in Eb as Ek. destruct Ek as [Ek _]. congruence.
  - destruct (N.ltb_spec (key l b) x) as [Hlt|Hge].
    + split; [lia|]. intros i k id Ei. destruct (nth_key l i k id Ei) as [<- Hi]. split; intros Hb.
      * destruct (Nat.eq_dec i b) as [->|]; auto. pose proof (ascending_key l HA i b ltac:(lia)). lia.
      * apply B3. lia.
    + split; [lia|]. intros i k id Ei. destruct (nth_key l i k id Ei) as [<- Hi].
      assert (b = 0%nat) as -> by (destruct B2; auto; lia). split; intros Hb; [lia|].
      destruct (Nat.eq_dec i 0) as [->|]; [lia|]. apply B3. lia.
Qed.

(** Any such search leads to the first key above [x]. *)
Lemma contract_next bs l x n : meets_contract bs -> ascending l ->
  n = match bs l x with inl n => S n | inr n => n end ->
  (forall i k id, nth_error l i = Some (k, id) -> ((i < n)%nat -> k <= x) /\ ((n <= i)%nat -> x < k)).
Proof.
  intros Hc HA -> i k id Ei. specialize (Hc l x HA). destruct (bs l x) as [m|m].
  - destruct Hc as (id' & Em). destruct (nth_key l i k id Ei) as [<- Hi]. destruct (nth_key l m x id' Em) as [<- Hm]. split; intros Hb.
    + destruct (Nat.eq_dec i m) as [->|]; [lia|]. pose proof (ascending_key l HA i m ltac:(lia)). lia.
    + apply (ascending_key l HA). lia.
  - destruct Hc as [_ Hc]. destruct (Hc i k id Ei) as [A B]. split; intros Hb; [specialize (A Hb); lia|auto].
Qed.

(** ** The index of a plain history *)
Section Stored.
Context {T : Type}.
Variable F : flavor.
Hypothesis HE : fl_index F <> IxEmpty.
Hypothesis HI : fl_indexes F = SVec.
Implicit Types a : doc T.

Definition stored (ts : list (nat * span)) : list (N * nat) :=
  map (fun p => (s_end (snd p), fst p)) (filter (fun p => negb (span_is_empty (snd p))) ts).
Lemma stored_app t1 t2 : stored (t1 ++ t2) = stored t1 ++ stored t2.
Proof. unfold stored. rewrite filter_app, map_app. auto. Qed.

Lemma stored_cons id sp ts : stored ((id, sp) :: ts) = if s_end sp =? s_start sp then stored ts else (s_end sp, id) :: stored ts.
Proof. unfold stored. cbn [filter snd]. unfold span_is_empty at 1. destruct (s_end sp =? s_start sp); auto. Qed.

Lemma index_step c a o a' r c' : doc_laid c a -> doc_laid c' a' -> a_step F a o = Some (a', r) ->
  (match o with OTokenWith _ _ => False | _ => True end) ->
  a_index a' = a_index a ++ stored (match o, r with
      | OToken _ _, RNode id | OTokenEmpty _, RNode id => [(id, Span c c')]
      | _, _ => []
      end).
Proof.
  intros H H' E Hp. pose proof (dl_cursor _ _ H) as Hc. pose proof (dl_cursor _ _ H') as Hc'.
  assert (SAME : a_index a' = a_index a -> a_index a' = a_index a ++ stored []) by (intros ->; rewrite app_nil_r; auto).
  assert (CA : forall k d osp, a_close_at F k d osp a = Some (a', r) -> a_index a' = a_index a).
  { intros k d osp E'. unfold a_close_at in E'. destruct (nth_error (a_marks a) k) as [m|]; [|injection E' as <- <-; auto].
    destruct (negb _); [injection E' as <- <-; auto|]. destruct (full F a); [injection E' as <- <-; auto|].
    destruct m as [lv pos|]; [|discriminate]. destruct (skipn pos (a_cur a)); injection E' as <- <-; auto. }
  assert (TK : forall d len, a_token F d len a = (a', r) ->
     a_index a' = a_index a ++ stored (match r with RNode id => [(id, Span c c')] | _ => [] end)).
  { intros d len E'. unfold a_token in E'. rewrite (len_empty F HE) in E'. destruct (N.eqb_spec len 0) as [Hl|Hl].
    - destruct (full F a); injection E' as <- <-; [apply SAME; auto|]. simpl in *. rewrite Hc in Hc'. subst c'.
      unfold stored, span_is_empty. simpl. rewrite N.eqb_refl. simpl. rewrite app_nil_r. auto.
    - rewrite (checked_add F HE) in E'. destruct (N.leb_spec (a_cursor a + len) (ix_max F)).
      + destruct (full F a); injection E' as <- <-; [apply SAME; auto|]. simpl in *. rewrite HI. subst c'.
        unfold stored, span_is_empty. simpl. destruct (N.eqb_spec (a_cursor a + len) c); [lia|]. simpl. auto.
      + injection E' as <- <-. apply SAME; auto. }
  destruct o; cbn [a_step] in E; try (apply SAME; eapply CA; exact E); injection E as E.
  - apply SAME. unfold a_open_with in E. destruct (full F a); injection E as <- <-; auto.
  - apply SAME. unfold a_open_with in E. destruct (full F a); injection E as <- <-; auto.
  - apply SAME. unfold a_close in E. destruct (a_open a); injection E as <- <-; auto.
  - eapply TK; exact E.
  - eapply TK; exact E.
  - tauto.
  - apply SAME. unfold a_checkpoint in E. destruct (full F a); injection E as <- <-; auto.
  - apply SAME. subst. auto.
Qed.

Lemma plain_index ops : forall c a a' rs, doc_laid c a -> a_run F a ops = Some (a', rs) -> plain F c ops rs ->
  a_index a' = a_index a ++ stored (token_spans c ops rs) /\
  tile c (map snd (token_spans c ops rs)) (c + total_len ops rs).
Proof.
  induction ops as [|o ops IH]; intros c a a' rs H E HP.
  - simpl in E. injection E as <- <-. simpl. rewrite app_nil_r, N.add_0_r. auto.
  - cbn [a_run] in E. destruct (a_step F a o) as [[a1 r]|] eqn:E1; [|discriminate].
    destruct (a_run F a1 ops) as [[a2 rs']|] eqn:E2; [|discriminate]. injection E as <- <-.
    destruct (plain_step F HE c a o a1 r ops rs' H E1 HP) as (c' & H1 & HP1 & Hsum & Htok).
    destruct (IH c' a1 a2 rs' H1 E2 HP1) as [A B].
    assert (Hp : match o with OTokenWith _ _ => False | _ => True end) by (destruct o; auto; destruct r; exact HP).
    split.
    + rewrite A, (index_step c a o a1 r c' H H1 E1 Hp), Htok, stored_app, app_assoc. auto.
    + rewrite Htok, map_app, <- Hsum. clear -B H H1 E1 HP HE.
      assert (Hcc : match o, r with
        | OToken _ _, RNode _ | OTokenEmpty _, RNode _ => True | _, _ => False end \/ c' = c).
      { pose proof (dl_span _ _ H) as S0. pose proof (dl_span _ _ H1) as S1.
        assert (CA : forall k d osp, a_close_at F k d osp a = Some (a1, r) -> a_span a1 = a_span a).
        { intros k d osp E'. unfold a_close_at in E'. destruct (nth_error (a_marks a) k) as [m|]; [|injection E' as <- <-; auto].
          destruct (negb _); [injection E' as <- <-; auto|]. destruct (full F a); [injection E' as <- <-; auto|].
          destruct m as [lv pos|]; [|discriminate]. destruct (skipn pos (a_cur a)); injection E' as <- <-; auto. }
        assert (TK : forall d len, a_token F d len a = (a1, r) -> match r with RNode _ => True | _ => False end \/ a_span a1 = a_span a \/ full F a = true).
        { intros d len E'. unfold a_token in E'. destruct (len_is_empty F len).
          - destruct (full F a); injection E' as <- <-; auto.
          - destruct (ix_checked_add_len F (a_cursor a) len); [|injection E' as <- <-; auto].
            destruct (full F a); injection E' as <- <-; auto. }
        assert (EQ : a_span a1 = a_span a -> c' = c) by (intros X; rewrite S0, S1 in X; congruence).
        destruct o; cbn [a_step] in E1; try (right; apply EQ; eapply CA; exact E1); injection E1 as E1.
        - right; apply EQ. unfold a_open_with in E1. destruct (full F a); injection E1 as <- <-; auto.
        - right; apply EQ. unfold a_open_with in E1. destruct (full F a); injection E1 as <- <-; auto.
        - right; apply EQ. unfold a_close in E1. destruct (a_open a); injection E1 as <- <-; auto.
        - destruct r; auto; right.
          all: try (simpl in HP; destruct HP as [HP _]; unfold a_token in E1; rewrite (len_empty F HE), (checked_add F HE), (dl_cursor _ _ H) in E1;
            destruct (N.eqb_spec len 0); [destruct (full F a); inversion E1; subst; apply EQ; auto|];
            destruct (N.leb_spec (c + len) (ix_max F)); [lia|]; inversion E1; subst; apply EQ; auto).
        - destruct r; auto; right; apply EQ; unfold a_token in E1; rewrite (len_empty F HE) in E1; simpl in E1;
            destruct (full F a); inversion E1; subst; auto.
        - destruct r; simpl in HP; tauto.
        - right; apply EQ. unfold a_checkpoint in E1. destruct (full F a); injection E1 as <- <-; auto.
        - destruct r; simpl in HP; tauto. }
      assert (Hle : c <= c').
      { destruct o; try (destruct Hcc as [[]| ->]; lia); destruct r; try (destruct Hcc as [[]| ->]; lia).
        - cbn [a_step] in E1. injection E1 as E1. pose proof (dl_cursor _ _ H) as C0. pose proof (dl_cursor _ _ H1) as C1.
          unfold a_token in E1. rewrite (len_empty F HE), (checked_add F HE) in E1. destruct (N.eqb_spec len 0).
          + destruct (full F a); inversion E1; subst; simpl; lia.
          + destruct (N.leb_spec (a_cursor a + len) (ix_max F)); [|inversion E1]. destruct (full F a); inversion E1; subst; simpl in *; lia.
        - cbn [a_step] in E1. injection E1 as E1. pose proof (dl_cursor _ _ H) as C0. pose proof (dl_cursor _ _ H1) as C1.
          unfold a_token in E1. rewrite (len_empty F HE) in E1. simpl in E1. destruct (full F a); inversion E1; subst; simpl in *; lia. }
      destruct o; try (destruct Hcc as [[]| ->]; exact B); destruct r; try (destruct Hcc as [[]| ->]; exact B); simpl; auto.
Qed.

(** The stored ends are strictly ascending and lead to the token at a position. *)
Lemma tile_stored ts : forall s e, tile s (map snd ts) e -> ascending (stored ts) /\
  (forall k id, In (k, id) (stored ts) -> s < k) /\ s <= e.
Proof.
  induction ts as [|[id sp] ts IH]; intros s e H; simpl in H.
  - subst. split; [exact I|]. split; [intros k id []|lia].
  - destruct H as (A & B & C). destruct (IH _ _ C) as (H1 & H2 & H3). rewrite stored_cons.
    destruct (N.eqb_spec (s_end sp) (s_start sp)) as [Hs|Hs].
    + split; [exact H1|]. split; [|lia]. intros k id' Hin. specialize (H2 k id' Hin). lia.
    + split; [|split; [|lia]].
      * destruct (stored ts) as [|[k0 id0] st]; [exact I|]. split; [|exact H1]. simpl. apply (H2 k0 id0). left. auto.
      * intros k id' [Hin|Hin]; [injection Hin as <- <-; lia|]. specialize (H2 k id' Hin). lia.
Qed.

Lemma tile_find ts x : forall s e n, tile s (map snd ts) e -> s <= x ->
  (forall i k id, nth_error (stored ts) i = Some (k, id) -> ((i < n)%nat -> k <= x) /\ ((n <= i)%nat -> x < k)) ->
  (x < e -> exists id sp, nth_error (stored ts) n = Some (s_end sp, id) /\ In (id, sp) ts /\ s_start sp <= x < s_end sp) /\
  (e <= x -> nth_error (stored ts) n = None).
Proof.
  induction ts as [|[id sp] ts IH]; intros s e n H Hx HN; simpl in H.
  - subst. split; [lia|]. intros _. destruct n; auto.
  - destruct H as (A & B & C). rewrite stored_cons in HN |- *.
    destruct (N.eqb_spec (s_end sp) (s_start sp)) as [Hs|Hs].
    + destruct (IH (s_end sp) e n C ltac:(lia) HN) as [G1 G2]. split; auto.
      intros Hxe. destruct (G1 Hxe) as (id' & sp' & X & Y & Z). exists id', sp'. split; [exact X|]. split; [right; exact Y|exact Z].
    + destruct (HN 0%nat _ _ eq_refl) as [N1 N2]. destruct n as [|n].
      * specialize (N2 (Nat.le_refl _)). split; [|].
        -- intros _. exists id, sp. split; [reflexivity|]. split; [left; auto|lia].
        -- intros He. exfalso. destruct (tile_stored _ _ _ C) as (_ & _ & Hle). lia.
      * specialize (N1 (Nat.lt_0_succ _)). destruct (IH (s_end sp) e n C N1) as [G1 G2].
        { intros i k id' Ei. destruct (HN (S i) k id' Ei) as [X Y]. split; intros; [apply X|apply Y]; lia. }
        split; auto. intros Hxe. destruct (G1 Hxe) as (id' & sp' & X & Y & Z). exists id', sp'. split; [exact X|]. split; [right; exact Y|exact Z].
Qed.
End Stored.

(** ** Climbing *)
Section Climb.
Context {T : Type}.
Variable t : tree T.
Variable l : list (rose T).
Hypothesis Hrep : tree_rep t l.

Lemma opt_got o (n : node T) : node_opt (t_nodes t) o = Some n -> tree_get t (fst n) = Some n.
Proof.
  destruct o as [i|]; [|discriminate]. unfold tree_get. simpl. unfold node_at. destruct (nth_error (t_nodes t) i) eqn:E; [|discriminate].
  intros H. injection H as <-. simpl. rewrite E. auto.
Qed.

Lemma climb_spec e : forall x ch, ancestry l x ch -> forall fuel n o, tree_get t (r_id x) = Some n ->
  climb fuel (t_nodes t) e n = Ok o -> exists r, enclosing e ch r /\ view o = rview r /\ In r (preorder_list l).
Proof.
  induction 1 as [x Hx|x y ch Hy IH Hx]; intros fuel n o E Ec; (destruct fuel as [|fuel]; [discriminate|]); simpl in Ec.
  - destruct (in_split _ _ Hx) as (s1 & s2 & El).
    assert (Hs : In (None, s1 ++ x :: s2) (sibling_lists l)) by (left; congruence).
    destruct (nav_links t l Hrep _ _ _ _ _ Hs E) as (A0 & A1 & _).
    unfold answers in A1. destruct (node_parent (t_nodes t) n); [discriminate|]. injection Ec as <-.
    exists x. split; [constructor|]. split; auto. apply preorder_list_top. auto.
  - destruct (in_split _ _ Hx) as (s1 & s2 & El). pose proof (ancestry_in l _ _ Hy) as Hyl.
    assert (Hs : In (Some y, s1 ++ x :: s2) (sibling_lists l)) by (rewrite <- El; apply kids_sibling_list; auto).
    destruct (nav_links t l Hrep _ _ _ _ _ Hs E) as (_ & A1 & _).
    destruct (node_parent (t_nodes t) n) as [my|] eqn:Ep; [|discriminate]. unfold answers in A1. simpl in A1.
    assert (Ey : tree_get t (r_id y) = Some my).
    { assert (Ei : fst my = r_id y) by (unfold view, rview in A1; congruence). rewrite <- Ei. eapply opt_got; eauto. }
    assert (Esp : node_span my = r_span y) by (unfold view, rview in A1; congruence).
    rewrite Esp in Ec. destruct (N.leb_spec e (s_end (r_span y))) as [Hle|Hgt].
    + injection Ec as <-. exists y. assert (exists ch', ch = y :: ch') as [ch' ->] by (inversion Hy; eauto).
      split; [constructor; auto|]. split; auto. congruence.
    + destruct (IH fuel my o Ey Ec) as (r & H1 & H2 & H3). exists r.
      assert (exists ch', ch = y :: ch') as [ch' ->] by (inversion Hy; eauto). split; auto. apply enc_up; auto.
Qed.
End Climb.

(** ** Positions and layouts *)
Section Pos.
Context {T : Type}.
Implicit Types (x z : rose T) (l : list (rose T)).

Lemma laid_bounds : (forall s x e, @laid T s x e -> forall y, In y (preorder x) -> s <= s_start (r_span y) /\ s_end (r_span y) <= e) /\
  (forall s l e, @laid_list T s l e -> forall y, In y (preorder_list l) -> s <= s_start (r_span y) /\ s_end (r_span y) <= e).
Proof.
  split.
  - intros s x e H y Hy. destruct (proj1 laid_inside s x e H y Hy) as (s' & e' & H1 & H2 & H3).
    rewrite (laid_span _ _ _ H1). simpl. lia.
  - intros s l e H y Hy. destruct (proj2 laid_inside s l e H y Hy) as (s' & e' & H1 & H2 & H3).
    rewrite (laid_span _ _ _ H1). simpl. lia.
Qed.

(** A node that holds the position of a childless node is that node or an ancestor. *)
Lemma holds_above p x z : r_kids x = [] -> holds_pos p x -> holds_pos p z ->
  (forall s y e, @laid T s y e -> In x (preorder y) -> In z (preorder y) -> In x (preorder z)) /\
  (forall s l e, @laid_list T s l e -> In x (preorder_list l) -> In z (preorder_list l) -> In x (preorder z)).
Proof.
  intros Hk Hx Hz. apply laid_mut.
  - intros s e i d H [<-|[]] [<-|[]]. simpl. auto.
  - intros s i k d [<-|[]] [<-|[]]. simpl. auto.
  - intros s e i k d y kids H IH Hx1 Hz1. simpl in Hz1. destruct Hz1 as [<-|Hz1]; auto.
    simpl in Hx1. destruct Hx1 as [<-|Hx1]; [discriminate|]. apply IH; auto.
  - intros s [].
  - intros s y m l e H1 IH1 H2 IH2 Hx1 Hz1. unfold preorder_list in *. cbn [flat_map] in Hx1, Hz1.
    apply in_app_iff in Hx1, Hz1. destruct Hx1 as [Hx1|Hx1], Hz1 as [Hz1|Hz1]; auto; exfalso.
    + pose proof (proj1 laid_bounds _ _ _ H1 _ Hx1). pose proof (proj2 laid_bounds _ _ _ H2 _ Hz1). unfold holds_pos in *. lia.
    + pose proof (proj1 laid_bounds _ _ _ H1 _ Hz1). pose proof (proj2 laid_bounds _ _ _ H2 _ Hx1). unfold holds_pos in *. lia.
Qed.

(** The chain of a childless node, without identifiers. *)
Lemma chain_in l x ch : ancestry l x ch -> r_kids x = [] -> In (map erase ch) (flat_map (chains []) (map erase l)).
Proof.
  intros H Hk.
  assert (G : forall c, In c (chains (map erase (tl ch)) (erase x)) -> In c (flat_map (chains []) (map erase l))).
  { clear Hk. induction H as [x Hx|x y ch Hy IH Hx]; intros c Hc.
    - apply in_flat_map. exists (erase x). split; auto. apply in_map. auto.
    - apply IH. destruct y as [i k d sp kids]. simpl in Hx. assert (exists ch', ch = Nd i k d sp kids :: ch') as [ch' ->] by (inversion Hy; eauto).
      cbn [tl map erase] in *. destruct kids as [|y kids]; [destruct Hx|]. cbn [map] in *.
      change (chains (map erase ch') (Sh d sp (erase y :: map erase kids))) with
        (flat_map (chains (Sh d sp (erase y :: map erase kids) :: map erase ch')) (map erase (y :: kids))).
      apply in_flat_map. exists (erase x). split; auto. apply in_map. auto. }
  apply G. destruct x as [i k d sp kids]. simpl in Hk. subst kids. cbn [erase map chains]. left.
  assert (exists ch', ch = Nd i k d sp [] :: ch') as [ch' ->] by (inversion H; eauto). auto.
Qed.

Lemma erase_span x : sh_span (erase x) = r_span x.
Proof. destruct x; auto. Qed.

Lemma chains_bounds p : (forall s y e, @laid T s y e -> forall above c, In c (chains above (erase y)) -> at_pos p c = true -> s <= p < e) /\
  (forall s l e, @laid_list T s l e -> forall above c, In c (flat_map (chains above) (map erase l)) -> at_pos p c = true -> s <= p < e).
Proof.
  apply laid_mut.
  - intros s e i d H above c [<-|[]]. simpl. rewrite andb_true_iff, N.leb_le, N.ltb_lt. auto.
  - intros s i k d above c [<-|[]]. simpl. rewrite andb_true_iff, N.leb_le, N.ltb_lt. auto.
  - intros s e i k d x kids H IH above c Hc. eapply IH. exact Hc.
  - intros s above c [].
  - intros s x m l e H1 IH1 H2 IH2 above c Hc Hp. cbn [map flat_map] in Hc. apply in_app_iff in Hc as [Hc|Hc].
    + specialize (IH1 _ _ Hc Hp). apply laid_list_le in H2. lia.
    + specialize (IH2 _ _ Hc Hp). apply laid_le in H1. lia.
Qed.

Lemma chains_unique p : (forall s y e, @laid T s y e -> forall above c c', In c (chains above (erase y)) -> In c' (chains above (erase y)) ->
    at_pos p c = true -> at_pos p c' = true -> c = c') /\
  (forall s l e, @laid_list T s l e -> forall above c c', In c (flat_map (chains above) (map erase l)) -> In c' (flat_map (chains above) (map erase l)) ->
    at_pos p c = true -> at_pos p c' = true -> c = c').
Proof.
  apply laid_mut.
  - intros s e i d H above c c' [<-|[]] [<-|[]]. auto.
  - intros s i k d above c c' [<-|[]] [<-|[]]. auto.
  - intros s e i k d x kids H IH above c c' Hc Hc'. eapply IH; [exact Hc|exact Hc'].
  - intros s above c c' [].
  - intros s x m l e H1 IH1 H2 IH2 above c c' Hc Hc' Hp Hp'. cbn [map flat_map] in Hc, Hc'. apply in_app_iff in Hc, Hc'.
    destruct Hc as [Hc|Hc], Hc' as [Hc'|Hc']; eauto; exfalso.
    + pose proof (proj1 (chains_bounds p) _ _ _ H1 _ _ Hc Hp). pose proof (proj2 (chains_bounds p) _ _ _ H2 _ _ Hc' Hp'). lia.
    + pose proof (proj1 (chains_bounds p) _ _ _ H1 _ _ Hc' Hp'). pose proof (proj2 (chains_bounds p) _ _ _ H2 _ _ Hc Hp). lia.
Qed.

Lemma enclosing_go_up e ch r : enclosing e ch r -> forall x ch', ch = x :: ch' -> go_up e (erase x) (map erase ch') = erase r.
Proof.
  induction 1 as [x|x y ch Hle|x y ch r Hgt H IH]; intros x0 ch0 E; injection E as <- <-; simpl; auto; rewrite erase_span.
  - destruct (N.leb_spec e (s_end (r_span y))); auto. lia.
  - destruct (N.leb_spec e (s_end (r_span y))); [lia|]. eauto.
Qed.

Lemma range_query_spec s e s0 e0 l x ch r : laid_list s0 l e0 -> ancestry l x ch -> r_kids x = [] -> holds_pos s x -> enclosing e ch r ->
  range_query (map erase l) s e = Some (erase r).
Proof.
  intros HL Ha Hk Hp He. pose proof (chain_in l x ch Ha Hk) as Hin. assert (exists ch', ch = x :: ch') as [ch' ->] by (inversion Ha; eauto).
  assert (Hat : at_pos s (map erase (x :: ch')) = true).
  { simpl. rewrite erase_span, andb_true_iff, N.leb_le, N.ltb_lt. exact Hp. }
  unfold range_query. destruct (find (at_pos s) (flat_map (chains []) (map erase l))) as [c|] eqn:Ef.
  - apply find_some in Ef as [E1 E2]. rewrite (proj2 (chains_unique s) _ _ _ HL [] c (map erase (x :: ch')) E1 Hin E2 Hat).
    simpl. f_equal. eapply enclosing_go_up; eauto.
  - rewrite (find_none _ _ Ef _ Hin) in Hat. discriminate.
Qed.
Lemma range_query_none s e s0 e0 l : laid_list s0 l e0 -> e0 <= s -> range_query (map erase l) s e = None.
Proof.
  intros HL Hs. unfold range_query. destruct (find (at_pos s) (flat_map (chains []) (map erase l))) as [c|] eqn:Ef; auto.
  apply find_some in Ef as [E1 E2]. pose proof (proj2 (chains_bounds s) _ _ _ HL _ _ E1 E2). lia.
Qed.
End Pos.
