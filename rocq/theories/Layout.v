(** Plain histories lay out their document without gaps. *)
From Coq Require Import Lia.
From Verif Require Import Base Pointer Index Tree Builder Hist Node Iter Spec SpecSpan Rep Refine TreeRep DocInv.
Local Open Scope N_scope.

Scheme laid_ind2 := Induction for laid Sort Prop
  with laid_list_ind2 := Induction for laid_list Sort Prop.
Combined Scheme laid_mut from laid_ind2, laid_list_ind2.

Section Layout.
Context {T : Type}.
Variable F : flavor.
Implicit Types (a : doc T) (x : rose T) (l : list (rose T)) (fs : list (frame T)).

Lemma laid_both : (forall s x e, @laid T s x e -> r_span x = Span s e /\ s <= e) /\
  (forall s l e, @laid_list T s l e -> s <= e).
Proof.
  apply laid_mut; simpl; intros; auto; try lia.
  - split; auto. lia.
Qed.
Lemma laid_span s x e : laid s x e -> r_span x = Span s e.
Proof. intros H. apply laid_both in H. apply H. Qed.
Lemma laid_le s x e : laid s x e -> s <= e.
Proof. intros H. apply laid_both in H. apply H. Qed.
Lemma laid_list_le s l e : laid_list s l e -> s <= e.
Proof. apply laid_both. Qed.

Lemma laid_app s l1 l2 e : laid_list s (l1 ++ l2) e <-> exists m, laid_list s l1 m /\ laid_list m l2 e.
Proof.
  revert s; induction l1 as [|x l1 IH]; intros s; simpl.
  - split; [intros H; exists s; split; [constructor|auto]|intros (m & H & H')]. inversion H; subst. auto.
  - split.
    + intros H. inversion H as [|? ? m ? ? Hx Hl]; subst. apply IH in Hl as (m' & H1 & H2). exists m'. split; auto. econstructor; eauto.
    + intros (m & H & H'). inversion H as [|? ? m' ? ? Hx Hl]; subst. econstructor; eauto. apply IH. eauto.
Qed.
Lemma laid_one s x e : laid_list s [x] e <-> laid s x e.
Proof.
  split; [intros H|intros H; econstructor; eauto; constructor].
  inversion H as [|? ? m ? ? Hx Hl]; subst. inversion Hl; subst. auto.
Qed.

Lemma laid_run_end s x l e : laid_list s (x :: l) e -> run_end x l = e.
Proof.
  revert s x; induction l as [|y l IH]; intros s x H; inversion H as [|? ? m ? ? Hx Hl]; subst; simpl.
  - inversion Hl; subst. rewrite (laid_span _ _ _ Hx). auto.
  - eapply IH; eauto.
Qed.
Lemma laid_run_span s x l e : laid_list s (x :: l) e -> run_span x l = Span s e.
Proof.
  intros H. unfold run_span. rewrite (laid_run_end _ _ _ _ H).
  inversion H as [|? ? m ? ? Hx Hl]; subst. rewrite (laid_span _ _ _ Hx). auto.
Qed.

(** The open nodes around the current level, which starts at [s] and reaches [e]. *)
Fixpoint frames_laid (s e : N) (fs : list (frame T)) : Prop :=
  match fs with
  | [] => s = 0
  | f :: fs => f_span f = Span s e /\ exists s', laid_list s' (f_left f) s /\ frames_laid s' s fs
  end.

Record doc_laid (c : N) a : Prop := {
  dl_cur : exists s, laid_list s (a_cur a) c /\ frames_laid s c (a_open a);
  dl_cursor : a_cursor a = c;
  dl_span : a_span a = Span 0 c;
}.

Lemma touch_laid s e e' fs : frames_laid s e fs -> frames_laid s e' (touch e' fs).
Proof. destruct fs as [|f fs]; simpl; auto. intros [-> H]. split; auto. Qed.

Hypothesis HE : fl_index F <> IxEmpty.

Lemma len_empty len : len_is_empty F len = (len =? 0).
Proof. unfold len_is_empty. destruct (fl_index F); congruence. Qed.

Lemma checked_add c len : ix_checked_add_len F c len =
  if c + len <=? ix_max F then Some (c + len) else None.
Proof.
  unfold ix_checked_add_len, ix_max. destruct (fl_index F); auto; [|congruence].
  destruct (N.leb_spec len 4294967295); auto. destruct (N.leb_spec (c + len) 4294967295); auto. lia.
Qed.

Lemma leaf_laid c c' a d i : doc_laid c a -> c <= c' -> forall a',
  a_cur a' = a_cur a ++ [Nd i KLeaf d (Span c c') []] ->
  a_open a' = touch c' (a_open a) -> a_cursor a' = c' -> a_span a' = Span 0 c' -> doc_laid c' a'.
Proof.
  intros H Hc a' E1 E2 E3 E4. destruct (dl_cur _ _ H) as (s & H1 & H2). constructor; auto. exists s. rewrite E1, E2. split.
  - apply laid_app. exists c. split; auto. apply laid_one. constructor. auto.
  - apply (touch_laid s c); auto.
Qed.

Lemma same_laid c a a' : doc_laid c a -> a_cur a' = a_cur a -> a_open a' = a_open a -> a_cursor a' = a_cursor a ->
  a_span a' = a_span a -> doc_laid c a'.
Proof. intros [H1 H2 H3] E1 E2 E3 E4. constructor; rewrite ?E1, ?E2, ?E3, ?E4; auto. Qed.

Lemma plain_step c a o a' r ops rs : doc_laid c a -> a_step F a o = Some (a', r) -> plain F c (o :: ops) (r :: rs) ->
  exists c', doc_laid c' a' /\ plain F c' ops rs /\ c' + total_len ops rs = c + total_len (o :: ops) (r :: rs) /\
    token_spans c (o :: ops) (r :: rs) =
      match o, r with
      | OToken _ _, RNode id | OTokenEmpty _, RNode id => [(id, Span c c')]
      | _, _ => []
      end ++ token_spans c' ops rs.
Proof.
  intros H E HP. pose proof (dl_cursor _ _ H) as Hcur. pose proof (dl_span _ _ H) as Hspan.
  assert (Hsame : a' = a -> doc_laid c a') by (intros ->; auto).
  destruct o; cbn [a_step] in E.
  - (* open *)
    exists c. split; [|split; [exact HP|split; reflexivity]]. injection E as E. unfold a_open_with in E.
    destruct (full F a); injection E as <- <-; [auto|].
    constructor; simpl; auto. exists c. split; [constructor|]. split; [rewrite Hcur; reflexivity|].
    destruct (dl_cur _ _ H) as (s & H1 & H2). exists s. split; auto. rewrite Hcur. apply (touch_laid s c). auto.
  - destruct r; simpl in HP; tauto.
  - (* close *)
    exists c. split; [|split; [exact HP|split; reflexivity]]. injection E as E. unfold a_close in E.
    destruct (a_open a) as [|f fs] eqn:Eo; injection E as <- <-; [auto|].
    destruct (dl_cur _ _ H) as (s & H1 & H2). rewrite Eo in H2. destruct H2 as (Ef & s' & H3 & H4).
    constructor; simpl; auto; [|rewrite Ef; auto]. exists s'. split.
    + apply laid_app. exists s. split; auto. apply laid_one. rewrite Ef.
      destruct (a_cur a) as [|x l]; [inversion H1; subst; constructor|constructor; auto].
    + destruct fs as [|f' fs]; simpl in *; auto. destruct H4 as (Ef' & s'' & H5 & H6). split; [|eauto].
      rewrite Ef', Ef. unfold span_join. simpl. apply laid_list_le in H1, H3. f_equal; lia.
  - (* token *)
    injection E as E. unfold a_token in E. rewrite len_empty in E. destruct (N.eqb_spec len 0) as [->|Hl].
    + destruct (full F a); injection E as <- <-.
      * simpl in HP. exists c. split; [auto|]. split; [apply HP|]. split; reflexivity.
      * exists (c + 0). simpl in HP. split; [|split; [exact HP|split; [simpl; lia|simpl; rewrite N.add_0_r; reflexivity]]].
        rewrite N.add_0_r. eapply (leaf_laid c c a d (a_n a)); simpl; auto; try lia; rewrite ?Hcur; auto.
    + rewrite checked_add in E. destruct (N.leb_spec (a_cursor a + len) (ix_max F)) as [Hle|Hgt].
      * destruct (full F a); injection E as <- <-; simpl in HP; [lia|].
        exists (c + len). split; [|split; [exact HP|split; [simpl; lia|reflexivity]]].
        eapply (leaf_laid c (c + len) a d (a_n a)); simpl; auto; try lia; rewrite ?Hcur, ?Hspan; auto.
      * injection E as <- <-. simpl in HP. exists c. split; [auto|]. split; [apply HP|]. split; reflexivity.
  - (* token_empty *)
    exists c. simpl in HP. split; [|split; [exact HP|split; [reflexivity|destruct r; reflexivity]]].
    injection E as E. unfold a_token in E. rewrite len_empty in E. simpl in E.
    destruct (full F a); injection E as <- <-; [auto|].
    eapply (leaf_laid c c a d (a_n a)); simpl; auto; try lia; rewrite ?Hcur; auto.
  - destruct r; simpl in HP; tauto.
  - (* checkpoint *)
    exists c. split; [|split; [exact HP|split; reflexivity]]. injection E as E. unfold a_checkpoint in E.
    destruct (full F a); injection E as <- <-; [auto|]. eapply same_laid; eauto.
  - (* close_at *)
    exists c. split; [|split; [exact HP|split; reflexivity]]. unfold a_close_at in E.
    destruct (nth_error (a_marks a) k) as [m|]; [|injection E as <- <-; auto].
    destruct (negb _); [injection E as <- <-; auto|]. destruct (full F a); [injection E as <- <-; auto|].
    destruct m as [lv pos|]; [|discriminate].
    destruct (skipn pos (a_cur a)) as [|x w] eqn:Es; injection E as <- <-.
    + eapply (leaf_laid c c a d (a_n a)); simpl; auto; try lia; rewrite ?Hcur; auto.
    + destruct (dl_cur _ _ H) as (s & H1 & H2). rewrite <- (firstn_skipn pos (a_cur a)), Es in H1.
      apply laid_app in H1 as (m & H3 & H4). constructor; simpl; auto. exists s. split; auto.
      apply laid_app. exists m. split; auto. apply laid_one. rewrite (laid_run_span _ _ _ _ H4). constructor. auto.
  - destruct r; simpl in HP; tauto.
  - destruct r; simpl in HP; tauto.
Qed.

(** Finished nodes are never changed again. *)
Definition doc_nodes a : list (rose T) :=
  preorder_list (a_cur a) ++ flat_map (fun f => preorder_list (f_left f)) (a_open a).

Lemma touch_lefts e fs : map (@f_left T) (touch e fs) = map (@f_left T) fs.
Proof. destruct fs; auto. Qed.
Lemma widen_lefts e fs : map (@f_left T) (widen e fs) = map (@f_left T) fs.
Proof. destruct fs; auto. Qed.
Lemma lefts_nodes fs : flat_map (fun f => preorder_list (f_left f)) fs = flat_map preorder_list (map (@f_left T) fs).
Proof. induction fs as [|f fs IH]; simpl; auto. rewrite IH. auto. Qed.
Lemma pre_app l1 l2 : preorder_list (l1 ++ l2) = preorder_list l1 ++ preorder_list l2.
Proof. apply flat_map_app. Qed.

Lemma pre_one i k d sp l : preorder_list [Nd i k d sp l] = Nd i k d sp l :: preorder_list l.
Proof. unfold preorder_list. simpl. rewrite app_nil_r. auto. Qed.

Lemma moved_keeps a a' r v x : moved a a' r v -> In x (doc_nodes a) -> In x (doc_nodes a').
Proof.
  intros H. destruct H; unfold doc_nodes; rewrite !lefts_nodes.
  - rewrite H, H0. auto.
  - rewrite H, H0. simpl. rewrite touch_lefts. auto.
  - rewrite H, H0, H1. cbn [map flat_map]. rewrite widen_lefts, pre_app, pre_one, !in_app_iff. cbn [In]. tauto.
  - rewrite H, H1, pre_app, !in_app_iff.
    assert (map (@f_left T) fs = map (@f_left T) (a_open a)) as ->; [|tauto].
    destruct H0 as [-> | ->]; rewrite ?widen_lefts, touch_lefts; auto.
  - rewrite H0, H1, H, !pre_app, pre_one, !in_app_iff. cbn [In]. tauto.
Qed.

Lemma plain_run ops : forall c a a' rs, doc_laid c a -> a_run F a ops = Some (a', rs) -> plain F c ops rs ->
  doc_laid (c + total_len ops rs) a' /\ (forall x, In x (doc_nodes a) -> In x (doc_nodes a')) /\
  (forall id sp, In (id, sp) (token_spans c ops rs) -> exists k d, In (Nd id k d sp []) (doc_nodes a')).
Proof.
  induction ops as [|o ops IH]; intros c a a' rs H E HP.
  - simpl in E. injection E as <- <-. simpl. rewrite N.add_0_r. split; auto. split; auto. intros id sp [].
  - cbn [a_run] in E. destruct (a_step F a o) as [[a1 r]|] eqn:E1; [|discriminate].
    destruct (a_run F a1 ops) as [[a2 rs']|] eqn:E2; [|discriminate]. injection E as <- <-.
    destruct (plain_step c a o a1 r ops rs' H E1 HP) as (c' & H1 & HP1 & Hsum & Htok).
    destruct (IH c' a1 a2 rs' H1 E2 HP1) as (A & B & C). rewrite Hsum in A. split; auto.
    destruct (a_step_moved F a o a1 r E1) as (v & Hm & _). split.
    + intros x Hx. apply B. eapply moved_keeps; eauto.
    + intros id sp. rewrite Htok, in_app_iff. intros [Hin|Hin]; [|eauto].
      assert (G : exists d, op_value o = Some d /\ r = RNode id /\ sp = Span c c' /\ (exists len, o = OToken d len) \/ (op_value o = Some d /\ r = RNode id /\ sp = Span c c' /\ o = OTokenEmpty d)).
      { destruct o; try (destruct r; destruct Hin; fail); destruct r; try (destruct Hin; fail);
          destruct Hin as [Hin|[]]; injection Hin as <- <-; simpl; eauto 10. }
      assert (Gl : exists d, a_cur a1 = a_cur a ++ [Nd id KLeaf d sp []]).
      { pose proof (dl_cursor _ _ H) as Hc. pose proof (dl_cursor _ _ H1) as Hc1. destruct G as [d [(_ & -> & -> & len & ->)|(_ & -> & -> & ->)]]; cbn [a_step] in E1; injection E1 as E1;
          unfold a_token in E1; rewrite len_empty in E1.
        - destruct (len =? 0); [destruct (full F a); [discriminate|]; injection E1 as <- <-; simpl in *; exists d; congruence|].
          destruct (ix_checked_add_len F (a_cursor a) len); [|discriminate]. destruct (full F a); [discriminate|]. injection E1 as <- <-.
          simpl in *. exists d. congruence.
        - simpl in E1. destruct (full F a); [discriminate|]; injection E1 as <- <-; simpl in *; exists d; congruence. }
      destruct Gl as (d & Gl). exists KLeaf, d. apply B. unfold doc_nodes. rewrite Gl, pre_app, !in_app_iff. simpl. auto.
Qed.

Lemma doc_new_laid : @doc_laid 0 doc_new.
Proof. constructor; simpl; auto. exists 0. split; [constructor|reflexivity]. Qed.
End Layout.

(** ** Consequences of a layout *)
Section Leaves.
Context {T : Type}.
Implicit Types (x : rose T) (l : list (rose T)).

Definition no_kids x : bool := negb (has_kids x).

Lemma tile_app s (l1 l2 : list span) e : tile s (l1 ++ l2) e <-> exists m, tile s l1 m /\ tile m l2 e.
Proof.
  revert s; induction l1 as [|x l1 IH]; intros s; simpl.
  - split; [intros H; exists s; auto|intros (m & -> & H); auto].
  - rewrite IH. split.
    + intros (A & B & m & C & D). exists m. auto.
    + intros (m & (A & B & C) & D). split; auto. split; auto. exists m. auto.
Qed.

Lemma laid_tiles : (forall s x e, @laid T s x e -> tile s (map (@r_span T) (filter no_kids (preorder x))) e) /\
  (forall s l e, @laid_list T s l e -> tile s (map (@r_span T) (filter no_kids (preorder_list l))) e).
Proof.
  apply laid_mut.
  - simpl. auto.
  - intros s i k d. simpl. split; [auto|]. split; [lia|auto].
  - intros s e i k d x kids H IH. exact IH.
  - intros s. reflexivity.
  - intros s x m l e Hx IHx Hl IHl. simpl. rewrite filter_app, map_app. apply tile_app. eauto.
Qed.

Lemma laid_list_tile s l e : laid_list s l e -> tile s (map (@r_span T) l) e.
Proof.
  induction 1 as [|s x m l e Hx Hl IH]; simpl; auto. rewrite (laid_span _ _ _ Hx). simpl. apply laid_le in Hx. auto.
Qed.

(** Every node inside a layout is laid out. *)
Lemma laid_inside : (forall s x e, @laid T s x e -> forall y, In y (preorder x) -> exists s' e', laid s' y e' /\ s <= s' /\ e' <= e) /\
  (forall s l e, @laid_list T s l e -> forall y, In y (preorder_list l) -> exists s' e', laid s' y e' /\ s <= s' /\ e' <= e).
Proof.
  apply laid_mut.
  - intros s e i d H y [<-|[]]. exists s, e. split; [constructor; auto|]. lia.
  - intros s i k d y [<-|[]]. exists s, s. split; [constructor|]. lia.
  - intros s e i k d x kids H IH y [<-|Hy]; [exists s, e; split; [constructor; auto|lia]|]. apply IH. exact Hy.
  - intros s y [].
  - intros s x m l e Hx IHx Hl IHl y Hy. simpl in Hy. apply in_app_iff in Hy. pose proof (laid_le _ _ _ Hx). pose proof (laid_list_le _ _ _ Hl). destruct Hy as [Hy|Hy].
    + destruct (IHx y Hy) as (s' & e' & A & B & C). exists s', e'. split; auto. lia.
    + destruct (IHl y Hy) as (s' & e' & A & B & C). exists s', e'. split; auto. lia.
Qed.

Lemma skipn_add {B} (p q : nat) : forall src : list B, skipn p (skipn q src) = skipn (q + p) src.
Proof.
  induction q as [|q IH]; intros src; simpl; auto. destruct src; simpl; auto. destruct p; auto.
Qed.

Lemma slice_tile {B} (src : list B) : forall (l : list span) s e, tile s l e ->
  concat (map (slice src) l) = firstn (N.to_nat e - N.to_nat s) (skipn (N.to_nat s) src).
Proof.
  assert (Hle : forall (l : list span) s e, tile s l e -> s <= e).
  { induction l as [|sp l IH]; simpl; intros s e; [lia|]. intros (A & B0 & C). apply IH in C. lia. }
  induction l as [|sp l IH]; simpl; intros s e.
  - intros <-. rewrite Nat.sub_diag. auto.
  - intros (A & B0 & C). rewrite (IH _ _ C). apply Hle in C. unfold slice. rewrite A.
    set (i := N.to_nat s). set (j := N.to_nat (s_end sp)). set (k := N.to_nat e).
    assert (i <= j <= k)%nat by (unfold i, j, k; lia).
    replace (k - i)%nat with ((j - i) + (k - j))%nat by lia.
    replace (skipn j src) with (skipn (j - i) (skipn i src)).
    2:{ rewrite skipn_add. f_equal. lia. }
    generalize (skipn i src). clear. intros src. revert src; generalize (j - i)%nat; generalize (k - j)%nat. clear.
    intros q p. induction p as [|p IH]; intros src; simpl; auto.
    destruct src; simpl; [rewrite firstn_nil; auto|]. rewrite IH. auto.
Qed.
End Leaves.
