(** Documents built with explicit spans. *)
From Coq Require Import Lia.
From Verif Require Import Base Pointer Index Tree Builder Hist Node Iter Spec SpecForward Rep Marks Refine TreeRep DocInv Layout.
Local Open Scope N_scope.

Section Forward.
Context {T : Type}.
Variable F : flavor.
Implicit Types a : doc T.

Scheme ordered_ind2 := Minimality for ordered Sort Prop
  with ordered_list_ind2 := Minimality for ordered_list Sort Prop.
Combined Scheme ordered_both_ind from ordered_ind2, ordered_list_ind2.

Lemma ordered_le s (x : rose T) e : ordered s x e -> s <= s_start (r_span x) /\ s_start (r_span x) <= s_end (r_span x) /\ s_end (r_span x) <= e /\
  ordered_list (s_start (r_span x)) (r_kids x) (s_end (r_span x)).
Proof. intros H. inversion H; subst. simpl. auto. Qed.
Lemma ordered_list_le (l : list (rose T)) : forall s e, ordered_list s l e -> s <= e.
Proof. induction l as [|x l IH]; intros s e H; inversion H; subst; auto. apply IH in H5. apply ordered_le in H3. lia. Qed.
Lemma ordered_weak s s' e e' (x : rose T) : ordered s x e -> s' <= s -> e <= e' -> ordered s' x e'.
Proof. intros H A B. inversion H; subst. constructor; auto; lia. Qed.
Lemma ordered_list_weak (l : list (rose T)) : forall s s' e e', ordered_list s l e -> s' <= s -> e <= e' -> ordered_list s' l e'.
Proof.
  induction l as [|x l IH]; intros s s' e e' H A B; inversion H; subst; [constructor; lia|].
  econstructor; [eapply ordered_weak; [eassumption|auto|apply N.le_refl]|]. eapply IH; eauto. lia.
Qed.
Lemma ordered_app (l1 l2 : list (rose T)) : forall s e, ordered_list s (l1 ++ l2) e <-> exists m, ordered_list s l1 m /\ ordered_list m l2 e.
Proof.
  induction l1 as [|x l1 IH]; intros s e; simpl; split.
  - intros H. exists s. split; auto. constructor; lia.
  - intros (m & H1 & H2). inversion H1; subst. eapply ordered_list_weak; eauto. lia.
  - intros H. inversion H; subst. apply IH in H5 as (m' & A & B). exists m'. split; auto. econstructor; eauto.
  - intros (m & H1 & H2). inversion H1; subst. econstructor; eauto. apply IH. eauto.
Qed.
Lemma ordered_one (x : rose T) s e : ordered_list s [x] e <-> ordered s x e.
Proof.
  split; intros H.
  - inversion H; subst. inversion H5; subst. eapply ordered_weak; eauto. lia.
  - econstructor; eauto. constructor; lia.
Qed.
Lemma ordered_wrap (w : list (rose T)) : forall x s e, ordered_list s (x :: w) e ->
  s <= s_start (r_span x) /\ s_start (r_span x) <= run_end x w /\ run_end x w <= e /\
  ordered_list (s_start (r_span x)) (x :: w) (run_end x w).
Proof.
  induction w as [|y w IH]; intros x s e H; inversion H as [|? ? m ? ? Hx Hw]; subst; pose proof (ordered_le _ _ _ Hx) as (A & B & C & D).
  - inversion Hw; subst. simpl. split; auto. split; auto. split; [lia|]. apply ordered_one. destruct x as [i k d [s0 e0] kids]; simpl in *. constructor; auto; lia.
  - destruct (IH y m e Hw) as (A' & B' & C' & D'). simpl. split; auto. split; [lia|]. split; auto.
    econstructor; [|eapply ordered_list_weak; [exact D'|exact A'|lia]].
    destruct x as [i k d [s0 e0] kids]; simpl in *. constructor; auto; lia.
Qed.

(** The open nodes around: each starts where its children may start. *)
Fixpoint outer_ord (s : N) (fs : list (frame T)) : Prop :=
  match fs with
  | [] => True
  | f :: fs => s_start (f_span f) = s /\ exists s0, ordered_list s0 (f_left f) s /\ outer_ord s0 fs
  end.
Record doc_ord (c : N) a : Prop := {
  do_cur : exists s, ordered_list s (a_cur a) c /\ outer_ord s (a_open a);
  do_end : match a_open a with [] => True | f :: _ => c <= s_end (f_span f) end;
}.

Lemma outer_touch s e fs : outer_ord s fs -> outer_ord s (touch e fs).
Proof. destruct fs; simpl; auto. Qed.
Lemma outer_widen s sp fs : s <= s_start sp -> outer_ord s fs -> outer_ord s (widen sp fs).
Proof. destruct fs as [|f fs]; simpl; auto. intros H [A B]. split; auto. lia. Qed.

Lemma leaf_ord c a (d : T) sp i : doc_ord c a -> c <= s_start sp -> s_start sp <= s_end sp -> forall a',
  a_cur a' = a_cur a ++ [Nd i KLeaf d sp []] ->
  (a_open a' = touch (s_end sp) (a_open a) \/ a_open a' = widen sp (touch (s_end sp) (a_open a))) -> doc_ord (s_end sp) a'.
Proof.
  intros [(s & H1 & H2) H3] A B a' E1 E2.
  assert (Hs : s <= c) by (eapply ordered_list_le; eauto). constructor.
  - exists s. split.
    + rewrite E1. apply ordered_app. exists c. split; auto. apply ordered_one. destruct sp; simpl in *. constructor; auto; try lia. constructor; lia.
    + destruct E2 as [-> | ->]; [apply outer_touch; auto|]. apply outer_widen; [lia|]. apply outer_touch; auto.
  - destruct E2 as [-> | ->]; destruct (a_open a); simpl; auto; lia.
Qed.
Lemma same_ord c a a' : doc_ord c a -> a_cur a' = a_cur a -> a_open a' = a_open a -> doc_ord c a'.
Proof. intros [H1 H2] E1 E2. constructor; rewrite ?E1, ?E2; auto. Qed.

Lemma forward_run ops : forall c a a' rs, doc_ord c a -> a_run F a ops = Some (a', rs) -> forward F c a ops ->
  exists c', doc_ord c' a'.
Proof.
  induction ops as [|o ops IH]; intros c a a' rs H E HF.
  - simpl in E. injection E as <- <-. eauto.
  - cbn [a_run forward] in *. destruct (a_step F a o) as [[a1 r]|] eqn:E1; [|discriminate].
    destruct (a_run F a1 ops) as [[a2 rs']|] eqn:E2; [|discriminate]. injection E as <- <-.
    assert (Hopen : forall d sp, a_open_with F d sp a = (a1, r) -> forall P : Prop, (match r with RNode _ => (c <= s_start sp <= s_end sp) /\ P | _ => True end) ->
       match r with RNode _ => doc_ord (s_start sp) a1 | _ => doc_ord c a1 end).
    { intros d sp Eo P HP. unfold a_open_with in Eo. destruct (full F a); injection Eo as <- <-; [auto|].
      destruct HP as [HP _]. destruct H as [(s & H1 & H2) H3]. constructor; simpl; [|lia].
      exists (s_start sp). split; [constructor; lia|]. split; auto. exists s. split; [|apply outer_touch; auto].
      eapply ordered_list_weak; eauto; lia. }
    assert (Htok : forall d len, a_token F d len a = (a1, r) ->
       match r with RNode _ => c <= a_cursor a -> doc_ord (a_cursor a1) a1 | _ => doc_ord c a1 end).
    { intros d len Eo. unfold a_token in Eo. destruct (len_is_empty F len) eqn:El.
      - destruct (full F a); injection Eo as <- <-; [auto|]. intros Hc.
        apply (leaf_ord c a d (Span (a_cursor a) (a_cursor a)) (a_n a)); simpl; auto. lia.
      - destruct (ix_checked_add_len F (a_cursor a) len) as [c2|] eqn:Ec; [|injection Eo as <- <-; auto].
        assert (Hle : a_cursor a <= c2).
        { unfold ix_checked_add_len in Ec. revert Ec. destruct (fl_index F) eqn:Ei.
          - destruct (len <=? _); [|discriminate]. destruct (_ <=? _); [|discriminate]. intros Ec; injection Ec as <-. lia.
          - destruct (_ <=? _); [|discriminate]. intros Ec; injection Ec as <-. lia.
          - unfold len_is_empty in El. rewrite Ei in El. discriminate. }
        destruct (full F a); injection Eo as <- <-; [eapply same_ord; eauto|]. intros Hc.
        apply (leaf_ord c a d (Span (a_cursor a) c2) (a_n a)); simpl; auto. }
    destruct o; cbn [a_step] in E1.
    + injection E1 as E1. pose proof (Hopen d _ E1) as G. destruct r; try (eapply IH; [|eauto|eauto]; apply (G True); exact I).
      destruct HF as [A B]. eapply IH; [|eauto|exact B].
      assert (Ec : a_cursor a1 = a_cursor a) by (unfold a_open_with in E1; destruct (full F a); [discriminate|]; assert (X := f_equal fst E1); simpl in X; rewrite <- X; auto).
      rewrite Ec. apply (G True). simpl. split; auto; lia.
    + injection E1 as E1. pose proof (Hopen d _ E1) as G. destruct r; try (eapply IH; [|eauto|eauto]; apply (G True); exact I).
      destruct HF as [A B]. eapply IH; [|eauto|exact B]. apply (G True). auto.
    + injection E1 as E1. unfold a_close in E1. destruct (a_open a) as [|f fs] eqn:Eo; injection E1 as <- <-; [eapply IH; eauto|].
      eapply IH; [|eauto|exact HF]. clear HF. simpl. destruct H as [(s & H1 & H2) H3]. rewrite Eo in *. destruct H2 as (A & s0 & B & C).
      pose proof (ordered_list_le _ _ _ H1) as Hs. pose proof (ordered_list_le _ _ _ B) as Hs0. replace (N.max c (s_end (f_span f))) with (s_end (f_span f)) by lia.
      constructor; simpl.
      * exists s0. split.
        -- apply ordered_app. exists s. split; auto. apply ordered_one. destruct (f_span f) as [fs_ fe]; simpl in *. subst fs_. constructor; auto; try lia.
           eapply ordered_list_weak; eauto; lia.
        -- apply outer_widen; auto. lia.
      * destruct fs; simpl; auto. lia.
    + injection E1 as E1. pose proof (Htok d _ E1) as G. destruct r; try (eapply IH; [exact G|eauto|eauto]; fail).
      destruct HF as [A B]. eapply IH; [|eauto|exact B]. auto.
    + injection E1 as E1. pose proof (Htok d _ E1) as G. destruct r; try (eapply IH; [exact G|eauto|eauto]; fail).
      destruct HF as [A B]. eapply IH; [|eauto|exact B]. auto.
    + injection E1 as E1. unfold a_token_with in E1. destruct (full F a); injection E1 as <- <-; [eapply IH; eauto|].
      destruct HF as [A B]. eapply IH; [|eauto|exact B]. apply (leaf_ord c a d sp (a_n a)); simpl; auto; lia.
    + injection E1 as E1. unfold a_checkpoint in E1. destruct (full F a); injection E1 as <- <-; [eapply IH; eauto|]. eapply IH; [|eauto|exact HF]. eapply same_ord; eauto.
    + unfold a_close_at in E1. destruct (nth_error (a_marks a) k) as [m|]; [|injection E1 as <- <-; eapply IH; eauto].
      destruct (negb _); [injection E1 as <- <-; eapply IH; eauto|]. destruct (full F a); [injection E1 as <- <-; eapply IH; eauto|].
      destruct m as [lv pos|]; [|discriminate].
      destruct (skipn pos (a_cur a)) as [|x w] eqn:Es; injection E1 as <- <-.
      * assert (Em : made_wrapper (a_leaf d (span_point (a_cursor a)) a) = false).
        { unfold made_wrapper, a_leaf; simpl. clear. induction (a_cur a) as [|y l IHl]; simpl; auto. destruct (l ++ _) eqn:El; auto. destruct l; discriminate. }
        rewrite Em in HF. destruct HF as [A B]. eapply IH; [|eauto|exact B].
        apply (leaf_ord c a d (span_point (a_cursor a)) (a_n a)); simpl; auto. lia.
      * assert (Em : forall a', a_cur a' = firstn pos (a_cur a) ++ [Nd (a_n a) KWrap d (run_span x w) (x :: w)] -> made_wrapper a' = true).
        { intros a' E'. unfold made_wrapper. rewrite E'. clear. induction (firstn pos (a_cur a)) as [|y l IHl]; simpl; auto. destruct (l ++ _) eqn:El; auto. destruct l; discriminate. }
        rewrite Em in HF by reflexivity. eapply IH; [|eauto|exact HF].
        destruct H as [(s & H1 & H2) H3]. rewrite <- (firstn_skipn pos (a_cur a)), Es in H1. apply ordered_app in H1 as (m & A & B).
        apply ordered_wrap in B as (B1 & B2 & B3 & B4). constructor; simpl; auto. exists s. split; auto.
        apply ordered_app. exists m. split; auto. apply ordered_one. unfold run_span. constructor; auto.
    + assert (G : a1 = a \/ exists i, r = RNode i).
      { clear -E1. unfold a_close_at in E1. destruct (nth_error (a_marks a) k) as [m|]; [|left; congruence].
        destruct (negb _); [left; congruence|]. destruct (full F a); [left; congruence|].
        destruct m; [|discriminate]. right. exists (a_n a). destruct (skipn pos (a_cur a)); congruence. }
      destruct r; try (destruct HF; fail); destruct G as [->|(i & G)]; try discriminate; eapply IH; eauto.
    + injection E1 as <- <-. eapply IH; [|eauto|exact HF]. eapply same_ord; eauto.
Qed.

Lemma doc_new_ord : doc_ord 0 (@doc_new T).
Proof. constructor; simpl; auto. exists 0. split; auto. constructor. lia. Qed.

(** In an ordered document every node encloses its children. *)
Lemma ordered_inside : (forall s x e, @ordered T s x e -> forall y, In y (preorder x) -> exists s' e', ordered s' y e') /\
  (forall s l e, @ordered_list T s l e -> forall y, In y (preorder_list l) -> exists s' e', ordered s' y e').
Proof.
  apply ordered_both_ind.
  - intros s s' e' e i k d kids A B C D IH y [<-|Hy]; [exists s, e; constructor; auto|]. apply IH. exact Hy.
  - intros s e _ y [].
  - intros s x m l e _ IH1 _ IH2 y Hy. unfold preorder_list in Hy. simpl in Hy. apply in_app_iff in Hy as [Hy|Hy]; [eapply IH1|eapply IH2]; eauto.
Qed.
Lemma ordered_members (l : list (rose T)) : forall s e, ordered_list s l e -> forall x, In x l -> s <= s_start (r_span x) /\ s_end (r_span x) <= e /\ s_start (r_span x) <= s_end (r_span x).
Proof.
  induction l as [|x l IH]; intros s e H y Hy; [destruct Hy|]. inversion H as [|? ? m ? ? H1 H2]; subst.
  pose proof (ordered_le _ _ _ H1). pose proof (ordered_list_le _ _ _ H2). destruct Hy as [<-|Hy]; [lia|]. specialize (IH _ _ H2 y Hy). lia.
Qed.

(** ** Given spans *)

Lemma given_run ops : forall a a' rs, a_run F a ops = Some (a', rs) ->
  (forall x, In x (doc_nodes a) -> In x (doc_nodes a')) /\
  (forall id sp, In (id, sp) (given ops rs) -> exists x, In x (doc_nodes a') /\ r_id x = id /\ r_span x = sp).
Proof.
  induction ops as [|o ops IH]; intros a a' rs E.
  - simpl in E. injection E as <- <-. split; auto. intros id sp [].
  - cbn [a_run] in E. destruct (a_step F a o) as [[a1 r]|] eqn:E1; [|discriminate].
    destruct (a_run F a1 ops) as [[a2 rs']|] eqn:E2; [|discriminate]. injection E as <- <-.
    destruct (IH _ _ _ E2) as [A B]. destruct (a_step_moved F a o a1 r E1) as (v & Hm & _). split.
    + intros x Hx. apply A. eapply moved_keeps; eauto.
    + intros id sp Hin.
      assert (G : In (id, sp) (given ops rs') \/ r = RNode id /\ ((exists d, o = OTokenWith d sp) \/ exists k d, o = OCloseAtWith k d sp)).
      { destruct o; try (left; exact Hin); destruct r; try (left; exact Hin);
          (destruct Hin as [Hin|Hin]; [injection Hin as <- <-; right; split; eauto|left; exact Hin]). }
      destruct G as [G|[-> G]]; [eauto|].
      assert (Gc : exists x l, a_cur a1 = l ++ [x] /\ r_id x = id /\ r_span x = sp).
      { destruct G as [(d & ->)|(k & d & ->)]; cbn [a_step] in E1.
        - injection E1 as E1. unfold a_token_with in E1. destruct (full F a); [discriminate|]. injection E1 as <- <-. simpl. eauto.
        - unfold a_close_at in E1. destruct (nth_error (a_marks a) k) as [m|]; [|discriminate].
          destruct (negb _); [discriminate|]. destruct (full F a); [discriminate|]. destruct m; [|discriminate].
          destruct (skipn pos (a_cur a)); injection E1 as <- <-; simpl; eauto. }
      destruct Gc as (x & l & Ec & Ei & Es). exists x. split; auto. apply A. unfold doc_nodes. rewrite Ec, pre_app, !in_app_iff.
      left. right. unfold preorder_list. simpl. rewrite app_nil_r. apply preorder_self.
Qed.

(** A node opened with a given span, open or closed. *)
Definition was_opened (id : nat) (sp : span) a : Prop :=
  (exists fs1 f fs2, a_open a = fs1 ++ f :: fs2 /\ f_id f = id /\ s_start (f_span f) <= s_start sp /\ (fs1 = [] -> a_cur a = [] -> f_span f = sp)) \/
  (exists x, In x (doc_nodes a) /\ r_id x = id /\ s_start (r_span x) <= s_start sp /\ (r_kids x = [] -> r_span x = sp)).

Lemma was_opened_step a o a' r id sp : a_step F a o = Some (a', r) -> was_opened id sp a -> was_opened id sp a'.
Proof.
  intros E H. destruct (a_step_moved F a o a' r E) as (v & Hm & _).
  destruct H as [H|(x & Hx & Hid & H)]; [|right; exists x; split; [eapply moved_keeps; eauto|auto]].
  destruct H as (fs1 & f & fs2 & Eo & Hid & Hs & Hsp).
  assert (Ht : forall e, exists fs1' f', touch e (a_open a) = fs1' ++ f' :: fs2 /\ f_id f' = id /\ s_start (f_span f') <= s_start sp).
  { intros e. rewrite Eo. destruct fs1 as [|g fs1]; simpl.
    - exists [], (Frame (f_id f) (f_data f) (set_end (f_span f) e) (f_left f)). simpl. auto.
    - exists (Frame (f_id g) (f_data g) (set_end (f_span g) e) (f_left g) :: fs1), f. auto. }
  assert (Hw : forall sp' fs1 f fs, f_id f = id -> s_start (f_span f) <= s_start sp -> fs = fs1 ++ f :: fs2 ->
     exists fs1' f', widen sp' fs = fs1' ++ f' :: fs2 /\ f_id f' = id /\ s_start (@f_span T f') <= s_start sp).
  { clear. intros sp' fs1 f fs Hid Hs ->. destruct fs1 as [|g fs1]; simpl.
    - exists [], (Frame (f_id f) (f_data f) (span_join (f_span f) sp') (f_left f)). simpl. split; auto. split; auto. lia.
    - exists (Frame (f_id g) (f_data g) (span_join (f_span g) sp') (f_left g) :: fs1), f. auto. }
  destruct Hm as [a' r H0 H1 H2 H3|d sp0 a' H0 H1 H2|f0 fs0 a' H0 H1 H2 H3|d sp0 fs a' H0 H1 H2 H3|d sp0 s1 x s2 a' H0 H1 H2 H3].
  - left. exists fs1, f, fs2. rewrite H0, H1. auto.
  - left. destruct (Ht (s_end sp0)) as (fs1' & f' & E1 & E2 & E3). rewrite H1, E1.
    eexists (_ :: fs1'), f', fs2. split; [reflexivity|]. split; auto. split; auto. discriminate.
  - rewrite H0 in Eo. destruct fs1 as [|g fs1]; injection Eo as -> ->.
    + right. exists (Nd (f_id f) KOpen (f_data f) (f_span f) (a_cur a)). split; [|simpl; auto].
      unfold doc_nodes. rewrite H1, pre_app, pre_one, !in_app_iff. simpl. auto.
    + left. destruct (Hw (f_span g) fs1 f (fs1 ++ f :: fs2) Hid Hs eq_refl) as (fs1' & f' & E1 & E2 & E3).
      exists fs1', f', fs2. rewrite H2, E1. split; auto. split; auto. split; auto. intros _ Hc. rewrite H1 in Hc. destruct (f_left g); discriminate.
  - left. destruct (Ht (s_end sp0)) as (fs1' & f' & E1 & E2 & E3).
    assert (Hc : a_cur a' <> []) by (rewrite H0; destruct (a_cur a); discriminate).
    destruct H1 as [-> | ->].
    + exists fs1', f', fs2. rewrite H2. split; auto. split; auto. split; auto. contradiction.
    + destruct (Hw sp0 fs1' f' _ E2 E3 E1) as (fs1'' & f'' & F1 & F2 & F3). exists fs1'', f'', fs2. rewrite H2. split; auto. split; auto. split; auto. contradiction.
  - left. exists fs1, f, fs2. rewrite H2. split; auto. split; auto. split; auto. intros _ Hc. rewrite H1 in Hc. destruct s1; discriminate.
Qed.

Lemma opened_run ops : forall a a' rs, a_run F a ops = Some (a', rs) ->
  (forall id sp, was_opened id sp a -> was_opened id sp a') /\
  (forall id sp, In (id, sp) (opened_with ops rs) -> was_opened id sp a').
Proof.
  induction ops as [|o ops IH]; intros a a' rs E.
  - simpl in E. injection E as <- <-. split; auto. intros id sp [].
  - cbn [a_run] in E. destruct (a_step F a o) as [[a1 r]|] eqn:E1; [|discriminate].
    destruct (a_run F a1 ops) as [[a2 rs']|] eqn:E2; [|discriminate]. injection E as <- <-.
    destruct (IH _ _ _ E2) as [A B]. split.
    + intros id sp H. apply A. eapply was_opened_step; eauto.
    + intros id sp Hin.
      assert (G : In (id, sp) (opened_with ops rs') \/ r = RNode id /\ exists d, o = OOpenWith d sp).
      { destruct o; try (left; exact Hin); destruct r; try (left; exact Hin);
          (destruct Hin as [Hin|Hin]; [injection Hin as <- <-; right; split; eauto|left; exact Hin]). }
      destruct G as [G|[-> (d & ->)]]; [eauto|]. apply A. cbn [a_step] in E1. injection E1 as E1.
      unfold a_open_with in E1. destruct (full F a); [discriminate|]. injection E1 as <- <-.
      left. exists [], (Frame (a_n a) d sp (a_cur a)), (touch (s_end sp) (a_open a)). simpl. repeat (split; auto). lia.
Qed.
End Forward.
