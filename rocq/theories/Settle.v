(** A tree that came out of [modify]: copying it once more. *)
From Coq Require Import Lia Permutation.
From Verif Require Import Base Pointer Index Tree Builder Hist Node Iter Query Edit Spec SpecSpan SpecEq SpecEdit SpecRange Rep Marks Refine TreeRep
  Enum Walk WalkTree WalkThms Nav Bounds Modify Copy PropsEdit PropsQuery.

(** The copy of a childless node counts as a token. *)
Fixpoint tidy {T} (x : rose T) : rose T :=
  match x with
  | Nd i k d sp [] => Nd i KLeaf d sp []
  | Nd i k d sp kids => Nd i k d sp (map tidy kids)
  end.

Lemma tidy_id T (x : rose T) : r_id (tidy x) = r_id x.
Proof. destruct x as [i k d sp [|y kids]]; auto. Qed.
Lemma tidy_span T (x : rose T) : r_span (tidy x) = r_span x.
Proof. destruct x as [i k d sp [|y kids]]; auto. Qed.
Lemma tidy_reach T (x : rose T) : reach (tidy x) = reach x.
Proof. destruct x as [i k d sp [|y kids]]; auto. Qed.
Lemma last_map A B (f : A -> B) (l : list A) : last_error (map f l) = option_map f (last_error l).
Proof. induction l as [|x [|y l] IH]; auto. Qed.
Lemma tidy_last_reach T s (l : list (rose T)) : last_reach s (map tidy l) = last_reach s l.
Proof. unfold last_reach. rewrite last_map. destruct (last_error l); simpl; auto. apply tidy_reach. Qed.
Lemma tidy_node T i k (d : T) sp y kids : tidy (Nd i k d sp (y :: kids)) = Nd i k d sp (map tidy (y :: kids)).
Proof. reflexivity. Qed.

(** Copying the outcome of an edit changes nothing but that. *)
Lemma edited_again T c top f n s (xs : list (rose T)) xs' n' s' up : edited c top f n s xs xs' n' s' up ->
  forall top2, edited [] top2 false n s xs' (map tidy xs') n' s' false.
Proof.
  assert (STEP : forall top2 n s d (kids' : list (rose T)) n1 s1 xs' n2 s2,
    (forall b, edited [] b false (S n) s kids' (map tidy kids') n1 s1 false) ->
    edited [] top2 false n1 s1 xs' (map tidy xs') n2 s2 false ->
    edited [] top2 false n s (Nd n KOpen d (Span s (last_reach s kids')) kids' :: xs')
      (map tidy (Nd n KOpen d (Span s (last_reach s kids')) kids' :: xs')) n2 s2 false).
  { intros top2 n0 s0 d kids' n1 s1 ys n2 s2 HK H. destruct kids' as [|y kids'].
    - specialize (HK false). inversion HK; subst. cbn [map tidy]. unfold last_reach. simpl.
      replace (Span s1 s1) with (Span s1 (s1 + width (Span s1 s1))) at 2 by (unfold width; simpl; f_equal; lia).
      apply ed_leaf; auto. replace (s1 + width (Span s1 s1))%N with s1 by (unfold width; simpl; lia). auto.
    - cbn [map]. rewrite tidy_node. rewrite <- (tidy_last_reach T s0 (y :: kids')) at 2.
      eapply ed_node; [right; reflexivity|apply HK|auto]. }
  induction 1 as [tp force n s|tp force n s i k d sp xs xs' n2 s2 up Hck H IH|tp force n s i k d sp y kids kids' n1 s1 xs xs' n2 s2 up Hck HK IHK H IH
    |tp force n s i k d sp y kids kids' n1 s1 xs xs' n2 s2 up Hck HK IHK H IH|tp n s x y xs out n2 s2 up Hck H IH|n s x Hck|n s x Hck];
    intros top2; auto; try apply ed_nil.
  - cbn [map tidy].
    replace (s + width sp)%N with (s + width (Span s (s + width sp)))%N at 2 by (unfold width; simpl; lia).
    apply ed_leaf; [right; reflexivity|]. replace (s + width (Span s (s + width sp)))%N with (s + width sp)%N by (unfold width; simpl; lia). auto.
  - eapply STEP; eauto.
  - eapply STEP; eauto.
Qed.

(** ** The same table *)
Section Same.
Context {T : Type}.
Implicit Types x y : rose T.
Implicit Types l : list (rose T).

Lemma tidy_hd l d : hd_id (map tidy l) d = hd_id l d.
Proof. destruct l; simpl; auto. rewrite tidy_id. auto. Qed.
Lemma tidy_ids x : ids (tidy x) = ids x.
Proof.
  induction x as [i k d sp kids IH] using rose_ind'. destruct kids as [|y kids]; auto. rewrite tidy_node. cbn [ids]. f_equal.
  revert IH. generalize (y :: kids) as ks. induction 1; cbn [map flat_map]; auto. congruence.
Qed.
Lemma tidy_ids_l l : ids_l (map tidy l) = ids_l l.
Proof. unfold ids_l. induction l; cbn [map flat_map]; auto. rewrite tidy_ids. congruence. Qed.

Definition plain_kinds l : Prop := forall x, In x (preorder_list l) -> r_kind x <> KWrap.
Lemma plain_lp x : r_kind x <> KWrap -> lp (tidy x) = lp x /\ rlp (tidy x) = rlp x.
Proof. destruct x as [i [] d sp [|y kids]]; simpl; auto; congruence. Qed.
Lemma plain_last f l : (forall x, In x l -> f (tidy x) = f x) -> forall d, last_of f (map tidy l) d = last_of f l d.
Proof. induction l as [|x l IH]; intros H d; auto. unfold last_of in *. simpl. rewrite H by (simpl; auto). apply IH. simpl in H. auto. Qed.

Lemma plain_sub i k d sp kids l : plain_kinds (Nd i k d sp kids :: l) -> k <> KWrap /\ plain_kinds kids /\ plain_kinds l.
Proof.
  intros H. split; [apply (H (Nd i k d sp kids)), in_pre_cons; auto|].
  split; intros x Hx; apply H, in_pre_cons; auto.
Qed.
Lemma plain_tops l : plain_kinds l -> forall x, In x l -> r_kind x <> KWrap.
Proof. intros H x Hx. apply H, preorder_list_top; auto. Qed.

Lemma tidy_flat_list : forall w l, length (preorder_list l) <= w -> plain_kinds l ->
  forall par prev nxt, flat_list par prev (map tidy l) nxt = flat_list par prev l nxt.
Proof.
  induction w as [|w IH]; intros l Hw Hk par prev nxt.
  - destruct l as [|[i k d sp kids] l]; auto. rewrite pre_len in Hw. lia.
  - destruct l as [|[i k d sp kids] l]; auto. rewrite pre_len in Hw. destruct (plain_sub _ _ _ _ _ _ Hk) as (K1 & K2 & K3).
    cbn [map flat_list]. rewrite tidy_hd, tidy_id. f_equal; [|apply IH; auto; lia].
    destruct kids as [|y kids].
    + cbn [tidy]. rewrite !flat_eq. cbn [hd_id flat_list last_field]. destruct k; auto; congruence.
    + rewrite tidy_node, !flat_eq, tidy_hd. f_equal; [|apply IH; auto; lia]. f_equal. f_equal.
      destruct k; [| |congruence]; unfold last_field; (rewrite plain_last; [reflexivity|]); intros z Hz; apply plain_lp; apply (plain_tops _ K2); auto.
Qed.

Lemma tidy_rep t l : plain_kinds l -> tree_rep t l -> tree_rep t (map tidy l).
Proof.
  intros Hk [R1 R2 R3 R4]. constructor.
  - rewrite (tidy_flat_list _ l (le_n _) Hk). auto.
  - rewrite tidy_ids_l. auto.
  - rewrite tidy_hd. auto.
  - rewrite plain_last; auto. intros x Hx. apply plain_lp. eapply plain_tops; eauto.
Qed.

Lemma nth_ext_opt {A} (a b : list A) : length a = length b -> (forall i, i < length a -> nth_error a i = nth_error b i) -> a = b.
Proof.
  revert b. induction a as [|x a IH]; intros [|y b] Hl H; simpl in *; try discriminate; auto.
  pose proof (H 0 ltac:(lia)) as E. simpl in E. injection E as <-. f_equal. apply IH; auto. intros i Hi. apply (H (S i)). lia.
Qed.
Lemma rep_same (t1 t2 : tree T) l : tree_rep t1 l -> tree_rep t2 l ->
  t_nodes t1 = t_nodes t2 /\ t_first t1 = t_first t2 /\ t_last t1 = t_last t2.
Proof.
  intros R S. split; [|split; [rewrite (tr_first _ _ R), (tr_first _ _ S)|rewrite (tr_last _ _ R), (tr_last _ _ S)]; auto].
  apply nth_ext_opt; [rewrite (tr_length _ _ R), (tr_length _ _ S); auto|]. intros i Hi.
  assert (Hin : In i (ids_l l)) by (eapply Permutation_in; [symmetry; apply (tr_perm _ _ R)|apply in_seq; lia]).
  rewrite <- (flat_list_ids l None None None) in Hin. apply in_map_iff in Hin as ([j e] & <- & He).
  pose proof (tr_rep _ _ R) as A. pose proof (tr_rep _ _ S) as B. unfold rep in *. rewrite Forall_forall in A, B.
  rewrite (A _ He), (B _ He). auto.
Qed.

Definition trait (y : rose T) := (stands y, s_start (r_span y), r_id y).
Lemma tidy_pre x : map trait (preorder (tidy x)) = map trait (preorder x).
Proof.
  induction x as [i k d sp kids IH] using rose_ind'.
  assert (E : map trait (flat_map preorder (map tidy kids)) = map trait (flat_map preorder kids)).
  { induction IH as [|z ks Hz _ IHk]; auto. cbn [map flat_map]. rewrite !map_app, Hz, IHk. auto. }
  destruct kids as [|y kids]; auto. rewrite tidy_node. apply (f_equal2 cons (eq_refl (trait (Nd i k d sp (y :: kids)))) E).
Qed.
Lemma filed_by l1 l2 : map trait (preorder_list l1) = map trait (preorder_list l2) ->
  filed l1 = filed l2.
Proof.
  unfold filed. generalize (preorder_list l1) as a. generalize (preorder_list l2) as b.
  induction b as [|y b IH]; intros [|x a] E; simpl in *; try discriminate; auto. injection E as E1 E2 E3 E. rewrite E1.
  destruct (stands y); simpl; rewrite (IH _ E); congruence.
Qed.
Lemma tidy_filed l : filed (map tidy l) = filed l.
Proof.
  apply filed_by. unfold preorder_list. induction l as [|x l IH]; auto. cbn [map flat_map]. rewrite !map_app, tidy_pre. congruence.
Qed.
End Same.

(** ** No index where there is none *)
Section NoIndex.
Context {T : Type}.
Variable F : flavor.
Hypothesis HI : fl_indexes F = SEmptyVec.

Lemma upd_index (p : nat) f (o : tree T) : t_indexes (tree_upd p f o) = t_indexes o.
Proof. reflexivity. Qed.
Lemma push_index_none cur id (o o' : tree T) : tree_push_index F cur id o = Some o' -> t_indexes o' = t_indexes o.
Proof. unfold tree_push_index, storage_push. rewrite HI. intros E. injection E as <-. auto. Qed.
Lemma push_none ls (o o' : tree T) : tree_push F ls o = Some o' -> t_indexes o' = t_indexes o.
Proof. unfold tree_push. destruct (storage_push (fl_storage F) (t_nodes o) ls); [|discriminate]. intros E. injection E as <-. auto. Qed.

Lemma emit_none (r : refactor T) o cur id n first r2 o2 cur2 : emit F r o cur id n first = (r2, o2, cur2, Ok tt) -> t_indexes o2 = t_indexes o.
Proof.
  unfold emit. intros E.
  set (o1 := match r_parents r with [] => _ | _ => o end) in E.
  assert (E1 : t_indexes o1 = t_indexes o) by (unfold o1; destruct (r_parents r); auto; destruct (t_first o); auto).
  clearbody o1. revert E.
  set (q := if first then _ else _). destruct q as [[r' prev] o1'] eqn:Eq.
  assert (E2 : t_indexes o1' = t_indexes o1).
  { unfold q in Eq. destruct first; injection Eq as <- <- <-; auto. destruct (r_prev r); auto. }
  clear q Eq. set (sd := if _ && _ then _ else _).
  assert (Hsd : forall o3 c3 sp, sd = inl (o3, c3, sp) -> t_indexes o3 = t_indexes o1').
  { unfold sd. intros o3 c3 sp. destruct (_ && _).
    - destruct (tree_push_index F cur id o1') as [o4|] eqn:E4; [|discriminate]. apply push_index_none in E4.
      destruct (ix_checked_add_len _ _ _); [|discriminate]. intros E. injection E as <- <- <-. auto.
    - intros E. injection E as <- <- <-. auto. }
  clearbody sd. destruct sd as [[[o3 c3] sp]|]; [|discriminate]. specialize (Hsd _ _ _ eq_refl).
  set (o4 := match (match r_parents r' with [] => None | _ => _ end) with Some _ => _ | None => _ end).
  assert (E4 : t_indexes o4 = t_indexes o3) by (unfold o4; destruct (r_parents r') as [|[? ?] ?]; auto).
  clearbody o4. destruct (tree_push F _ o4) as [o5|] eqn:E5; [|discriminate]. apply push_none in E5. intros E. injection E as <- <- <-. congruence.
Qed.
Lemma loop_none c nodes : forall fuel (r : refactor T) o cur current o' cur',
  modify_loop fuel F c nodes r o cur current = Ok (o', cur') -> t_indexes o' = t_indexes o.
Proof.
  induction fuel as [|fuel IH]; intros r o cur current o' cur' E; simpl in E; destruct current as [[n first]|]; try discriminate.
  - injection E as <- <-. auto.
  - destruct (pointer_new F (tree_len o)) as [id|]; [|discriminate].
    destruct (changed c id).
    + destruct (skip_subtree nodes r n first) as [r1 [[n1 first1]|]]; [|injection E as <- <-; auto].
      destruct (emit F r1 o cur id n1 first1) as [[[r2 o2] cur2] [[]|?|]] eqn:E1; try discriminate.
      destruct (refactor_step nodes r2 n1 id) as [r3 c3]. rewrite (IH _ _ _ _ _ _ E). eapply emit_none; eauto.
    + destruct (emit F r o cur id n first) as [[[r2 o2] cur2] [[]|?|]] eqn:E1; try discriminate.
      destruct (refactor_step nodes r2 n id) as [r3 c3]. rewrite (IH _ _ _ _ _ _ E). eapply emit_none; eauto.
  - injection E as <- <-. auto.
Qed.
Lemma modify_none fuel c (t t' : tree T) : modify fuel F c t = Ok t' -> t_indexes t' = [].
Proof.
  unfold modify. destruct (modify_loop _ _ _ _ _ _ _ _) as [[o cur]|?|] eqn:E; try discriminate. apply loop_none in E. intros X. injection X as <-. auto.
Qed.
End NoIndex.

(** ** The second run *)
Lemma modified_all T F (t : tree T) l c fuel t' l' n s : made F t l -> pointers F c -> edited c true false 0 0 l l' n s false -> modify fuel F c t = Ok t' ->
  bound F (ix_max F) n s /\ t_span t' = Span 0 s.
Proof.
  intros Hm Hp He E. destruct (made_facts T F t l Hm) as (HF & Hr & Hz & _).
  pose proof (modify_exact T F t l c HF Hr Hz (pointers_hits F c Hp) l' n s He) as [[B G]|[B G]].
  - destruct (G (S n) (le_n _)) as (t2 & E2 & S2 & R & Ix).
    assert (t2 = t') as ->.
    { assert (A : modify (fuel + S (S n)) F c t = Ok t') by (apply modify_more; auto; discriminate).
      assert (A2 : modify (S (S n) + fuel) F c t = Ok t2) by (apply modify_more; auto; discriminate).
      rewrite Nat.add_comm in A. congruence. }
    auto.
  - exfalso. specialize (G (S n) (le_n _)).
    assert (A : modify (fuel + S (S n)) F c t = Ok t') by (apply modify_more; auto; discriminate).
    assert (A2 : modify (S (S n) + fuel) F c t = Err Overflow) by (apply modify_more; auto; discriminate).
    rewrite Nat.add_comm in A. congruence.
Qed.

Lemma second_run T F (t : tree T) l c fuel t' l' n s : made F t l -> pointers F c -> edited c true false 0 0 l l' n s false -> modify fuel F c t = Ok t' ->
  forall fuel', tree_len t' + 2 <= fuel' -> exists t2, modify fuel' F changeset_new t' = Ok t2 /\
    t_nodes t2 = t_nodes t' /\ t_span t2 = t_span t' /\ t_first t2 = t_first t' /\ t_last t2 = t_last t' /\
    (fl_indexes F = SVec -> t_indexes t2 = filed l') /\ (fl_indexes F = SEmptyVec -> t_indexes t2 = t_indexes t').
Proof.
  intros Hm Hp He E fuel' Hf'.
  destruct (modified_all T F t l c fuel t' l' n s Hm Hp He E) as [B Sp].
  destruct (modified_facts T F t l c fuel t' l' n s Hm Hp He E) as (R & HL & _).
  pose proof (made_modified F fuel c t l t' l' n s Hm Hp He E) as Hm'.
  destruct (made_facts T F t' l' Hm') as (HF & Hr & Hz & _).
  pose proof (edited_again _ _ _ _ _ _ _ _ _ _ _ He true) as He2.
  assert (Hp2 : pointers F []) by (intros i []).
  pose proof (edited_size _ _ _ _ _ _ _ _ _ _ _ He) as Es. pose proof (tr_length _ _ R) as El. unfold tree_len in Hf'. simpl in Es.
  destruct (modify_exact T F t' l' [] HF Hr Hz (pointers_hits F [] Hp2) _ _ _ He2) as [[_ G]|[B' _]]; [|tauto].
  destruct fuel' as [|fuel']; [lia|]. destruct (G fuel' ltac:(lia)) as (t2 & E2 & S2 & R2 & Ix). exists t2. split; [exact E2|].
  pose proof (tidy_rep t' l' (edited_kinds _ _ _ _ _ _ _ _ _ _ _ He) R) as R'.
  destruct (rep_same t2 t' _ R2 R') as (A1 & A2 & A3). split; auto. split; [congruence|]. split; auto. split; auto. split.
  - intros HI. rewrite (Ix HI HL). apply tidy_filed.
  - intros HI. rewrite (modify_none F HI _ _ _ _ E2), (modify_none F HI _ _ _ _ E). auto.
Qed.
