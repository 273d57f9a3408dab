(** The code refines the specification: every call on a builder that
    represents a document gives the result the specification gives, and a
    builder representing the resulting document. *)
From Coq Require Import Lia Permutation.
From Verif Require Import Base Pointer Index Tree Builder Hist Spec Rep Marks.

Lemma ptr_new_lt F v :
  ptr_new F v = if (v <? int_max F (fl_width F))%N then Some (v + 1)%N else None.
Proof.
  unfold ptr_new. set (m := int_max F (fl_width F)).
  destruct (N.leb_spec v m), (N.ltb_spec v m); try lia; auto.
  - rewrite N.mod_small by lia. destruct (N.eqb_spec (v + 1) 0); auto; lia.
  - assert (v = m) as -> by lia. rewrite N.mod_same by lia. auto.
Qed.

Lemma pointer_new_spec F n :
  pointer_new F n = if N.leb (int_max F (fl_width F)) (N.of_nat n) then None else Some n.
Proof.
  unfold pointer_new. rewrite ptr_new_lt.
  destruct (N.ltb_spec (N.of_nat n) (int_max F (fl_width F))),
    (N.leb_spec (int_max F (fl_width F)) (N.of_nat n)); auto; lia.
Qed.

Section Refine.
Context {T : Type}.
Variable F : flavor.
Hypothesis HF : vec_flavor F.

Record BR (b : builder T) (a : doc T) : Prop := {
  br_rep : rep (t_nodes (b_tree b)) (flat_doc a);
  br_len : length (t_nodes (b_tree b)) = a_n a;
  br_perm : Permutation (doc_ids a) (seq 0 (a_n a));
  br_parent : b_parent b = level (a_open a);
  br_sib : b_sibling b = last_id (a_cur a) None;
  br_cursor : b_cursor b = a_cursor a;
  br_span : t_span (b_tree b) = a_span a;
  br_index : t_indexes (b_tree b) = a_index a;
  br_first : t_first (b_tree b) = root_first (a_open a) (hd_id (a_cur a) None);
  br_last : t_last (b_tree b) = root_last (a_open a) (last_of rlp (a_cur a) None);
}.

Definition kids_of (a : doc T) : list nat := map r_id (a_cur a) ++ [a_n a].

Record R (w : world T) (a : doc T) : Prop := {
  r_builder : BR (w_builder w) a;
  r_marks : marks_inv (w_heap w) (b_checkpoint (w_builder w)) (w_env w) (a_marks a)
              (a_open a) (kids_of a) (a_n a);
}.

(** ** Consequences *)
Lemma br_nodup b a : BR b a -> NoDup (doc_ids a).
Proof.
  intros H. eapply Permutation_NoDup; [symmetry; apply (br_perm _ _ H)|apply seq_NoDup].
Qed.
Lemma br_lt b a i : BR b a -> In i (doc_ids a) -> i < a_n a.
Proof.
  intros H Hi. eapply Permutation_in in Hi; [|apply (br_perm _ _ H)].
  apply in_seq in Hi. lia.
Qed.

Lemma open_ids_in fs : forall i, In i (open_ids fs) -> In i (@frames_ids T fs).
Proof.
  induction fs as [|f fs IH]; simpl; auto. intros i [->|H]; auto.
  right. apply in_app_iff. auto.
Qed.
Lemma open_ids_nodup fs : NoDup (@frames_ids T fs) -> NoDup (open_ids fs).
Proof.
  induction fs as [|f fs IH]; simpl; intros H; constructor; inversion H as [|? ? Hn Hd]; subst.
  - intros Hi. apply Hn. apply in_app_iff. right. apply open_ids_in; auto.
  - apply NoDup_app_iff in Hd. tauto.
Qed.

Lemma rep_touch nodes i (fs : list (frame T)) cf cl cf' cl' g :
  rep nodes (flat_frames fs cf cl) -> NoDup (frames_ids fs) ->
  level fs = Some i -> forall fs',
  (exists f f0, fs = f :: f0 /\ exists sp, fs' = Frame (f_id f) (f_data f) sp (f_left f) :: f0 /\
     g (Links (f_data f) (f_span f) (level f0) (last_id (f_left f) None) None cf cl) =
        Links (f_data f) sp (level f0) (last_id (f_left f) None) None cf' cl') ->
  rep (upd nodes i g) (flat_frames fs' cf' cl').
Proof.
  intros H Hd Hl fs' (f & f0 & -> & sp & -> & Hg). simpl in *. injection Hl as <-.
  eapply rep_upd_head; eauto. rewrite map_app, flat_list_ids, flat_frames_ids.
  inversion Hd; auto.
Qed.

Lemma level_in fs i : level fs = Some i -> In i (@frames_ids T fs).
Proof. destruct fs; simpl; intros E; [discriminate|]. injection E as <-. auto. Qed.

Lemma root_first_some (fs : list (frame T)) i j : root_first fs (Some i) = root_first fs (Some j) \/ fs = [].
Proof. destruct fs; auto. Qed.

(** ** [insert]: the state right after, before [parent]/[sibling] are set. *)
Lemma insert_spec b a d sp :
  BR b a ->
  full F a = false ->
  exists t,
    insert F d sp b = (set_b_tree t (set_b_sibling None b), Ok (a_n a)) /\
    length (t_nodes t) = S (a_n a) /\
    rep (t_nodes t)
      (flat_list (level (a_open a)) None (a_cur a) (Some (a_n a)) ++
       [(a_n a, Links d sp (level (a_open a)) (last_id (a_cur a) None) None None None)] ++
       flat_frames (touch (s_end sp) (a_open a)) (hd_id (a_cur a) (Some (a_n a))) (Some (a_n a))) /\
    t_span t = a_span a /\ t_indexes t = a_index a /\
    t_first t = root_first (a_open a) (hd_id (a_cur a) (Some (a_n a))) /\
    t_last t = root_last (a_open a) (Some (a_n a)).
Proof.
  intros H Hf. unfold full in Hf.
  pose proof (br_nodup _ _ H) as Hd. pose proof (fun i => br_lt _ _ i H) as Hlt.
  destruct H as [H1 H2 H3 H4 H5 H6 H7 H8 H9 H10].
  unfold insert, tree_len. rewrite H2, pointer_new_spec, Hf. cbn [b_sibling set_b_sibling].
  unfold tree_push. destruct HF as [HS _]. rewrite HS. cbn [storage_push option_map].
  change (b_parent (set_b_sibling None b)) with (b_parent b).
  change (b_tree (set_b_sibling None b)) with (b_tree b). rewrite H4, H5.
  set (n := a_n a) in *.
  unfold doc_ids in *. apply NoDup_app_iff in Hd as (Hd1 & Hd2 & Hd3).
  assert (Hn1 : ~ In n (ids_l (a_cur a))).
  { intros Hi. assert (n < n); [|lia]. apply Hlt. apply in_app_iff; auto. }
  assert (Hn2 : ~ In n (frames_ids (a_open a))).
  { intros Hi. assert (n < n); [|lia]. apply Hlt. apply in_app_iff; auto. }
  unfold flat_doc in H1. apply rep_app in H1 as [Hc Hfr].
  set (new := Links d sp (level (a_open a)) (last_id (a_cur a) None) None None None).
  set (t0 := set_t_nodes (t_nodes (b_tree b) ++ [new]) (b_tree b)).
  assert (Hnew : nth_error (t_nodes t0) n = Some new).
  { unfold t0; simpl. rewrite nth_error_app2 by lia. rewrite H2, Nat.sub_diag. auto. }
  assert (Hc0 : rep (t_nodes t0) (flat_list (level (a_open a)) None (a_cur a) None))
    by (apply rep_push; auto).
  assert (Hf0 : rep (t_nodes t0) (flat_frames (a_open a) (hd_id (a_cur a) None) (last_of lp (a_cur a) None)))
    by (apply rep_push; auto).
  assert (Hl0 : length (t_nodes t0) = S n).
  { unfold t0; simpl. rewrite app_length; simpl; lia. }
  (* parent *)
  match goal with |- context [match level (a_open a) with Some id => @?s id | None => ?r end] =>
    set (t1 := match level (a_open a) with Some id => s id | None => r end) end.
  assert (HT1 : nth_error (t_nodes t1) n = Some new /\
    rep (t_nodes t1) (flat_list (level (a_open a)) None (a_cur a) None) /\
    rep (t_nodes t1) (flat_frames (touch (s_end sp) (a_open a)) (hd_id (a_cur a) (Some n)) (Some n)) /\
    length (t_nodes t1) = S n /\ t_span t1 = a_span a /\ t_indexes t1 = a_index a /\
    t_first t1 = root_first (a_open a) (hd_id (a_cur a) (Some n)) /\
    t_last t1 = root_last (a_open a) (Some n)).
  { unfold t1. destruct (a_open a) as [|f fs] eqn:Eo.
    - simpl. repeat split; auto.
      + destruct (t_first (b_tree b)); auto.
      + destruct (t_first (b_tree b)); auto.
      + constructor.
      + destruct (t_first (b_tree b)); auto.
      + destruct (t_first (b_tree b)); auto.
      + destruct (t_first (b_tree b)); auto.
      + destruct (a_cur a); simpl in *; rewrite H9; auto.
    - cbn [level tree_upd]. cbn [t_nodes t_span t_indexes t_first t_last set_t_nodes tree_upd].
      assert (Hfn : f_id f <> n). { intros E; apply Hn2; simpl; auto. }
      repeat split.
      + rewrite nth_upd_other; auto.
      + apply rep_upd_other; auto. rewrite flat_list_ids. intros Hi. eapply Hd3; eauto. simpl; auto.
      + eapply rep_touch; eauto. exists f, fs. split; auto.
        exists (set_end (f_span f) (s_end sp)). split; auto. cbn.
        destruct (a_cur a); auto.
      + rewrite length_upd; auto.
      + simpl. auto.
      + simpl. auto.
      + simpl in H9 |- *. auto.
      + simpl in H10 |- *. auto. }
  clearbody t1. clear Hnew Hc0 Hf0 Hl0.
  destruct HT1 as (Q1 & Q2 & Q3 & Q4 & Q5 & Q6 & Q7 & Q8).
  destruct (last_id (a_cur a) None) as [pv|] eqn:Epv.
  - exists (tree_upd pv (set_l_next (Some n)) t1). split; [reflexivity|].
    assert (Hpv : In pv (ids_l (a_cur a))).
    { destruct (a_cur a) as [|x l]; [discriminate|].
      destruct (last_id_cons_some x l None) as (j & Ej & Hj).
      rewrite Ej in Epv; injection Epv as <-. apply in_r_id_ids; auto. }
    unfold tree_upd; simpl. rewrite length_upd. split; auto. split; auto.
    apply rep_app; split; [|simpl; apply rep_cons; split].
    + apply rep_set_next; auto.
    + rewrite nth_upd_other; auto. intros ->; auto.
    + apply rep_upd_other; auto. rewrite flat_frames_ids. intros Hi.
      destruct (a_open a); simpl in *; eapply Hd3; eauto.
  - exists t1. split; [reflexivity|]. split; auto. split; auto.
    destruct (a_cur a) as [|x l].
    + simpl. apply rep_cons. split; auto.
    + destruct (last_id_cons_some x l None) as (j & Ej & Hj). congruence.
Qed.

Lemma insert_full b a d sp :
  BR b a -> full F a = true -> insert F d sp b = (b, Err Overflow).
Proof.
  intros H Hf. unfold full in Hf. unfold insert, tree_len.
  rewrite (br_len _ _ H), pointer_new_spec, Hf. auto.
Qed.

Lemma perm_snoc (l l' : list nat) n :
  Permutation l (seq 0 n) -> Permutation l' (n :: l) -> Permutation l' (seq 0 (S n)).
Proof.
  intros H1 H2. rewrite H2, seq_S, H1. simpl. apply Permutation_cons_append.
Qed.

Lemma leaf_flat b a d sp nodes :
  BR b a ->
  rep nodes (flat_list (level (a_open a)) None (a_cur a) (Some (a_n a)) ++
       [(a_n a, Links d sp (level (a_open a)) (last_id (a_cur a) None) None None None)] ++
       flat_frames (touch (s_end sp) (a_open a)) (hd_id (a_cur a) (Some (a_n a))) (Some (a_n a))) ->
  rep nodes (flat_doc (a_leaf d sp a)).
Proof.
  intros _ H. unfold flat_doc, a_leaf; simpl.
  destruct (touch_frames (s_end sp) (a_open a)) as (_ & _ & ->).
  rewrite flat_list_app, hd_id_app, last_of_snoc. simpl.
  rewrite <- app_assoc. apply H.
Qed.

Lemma touch_ids e fs : @frames_ids T (touch e fs) = frames_ids fs.
Proof. destruct fs; auto. Qed.
Lemma widen_ids e fs : @frames_ids T (widen e fs) = frames_ids fs.
Proof. destruct fs; auto. Qed.
Lemma root_first_frames e (fs : list (frame T)) cf : root_first (touch e fs) cf = root_first fs cf.
Proof. destruct fs; auto. Qed.
Lemma root_last_frames e (fs : list (frame T)) cf : root_last (touch e fs) cf = root_last fs cf.
Proof. destruct fs; auto. Qed.
Lemma root_first_widen e (fs : list (frame T)) cf : root_first (widen e fs) cf = root_first fs cf.
Proof. destruct fs; auto. Qed.
Lemma root_last_widen e (fs : list (frame T)) cf : root_last (widen e fs) cf = root_last fs cf.
Proof. destruct fs; auto. Qed.

(** Adding a leaf, with [sibling] set afterwards as [token] and [close_at] do. *)
Lemma leaf_spec b a d sp :
  BR b a -> full F a = false ->
  exists t, insert F d sp b = (set_b_tree t (set_b_sibling None b), Ok (a_n a)) /\
    BR (set_b_sibling (Some (a_n a)) (set_b_tree t (set_b_sibling None b))) (a_leaf d sp a).
Proof.
  intros H Hf. destruct (insert_spec _ _ d sp H Hf) as (t & E & L & Q & S1 & S2 & S3 & S4).
  exists t. split; auto. constructor; simpl; auto.
  - eapply leaf_flat; eauto.
  - eapply perm_snoc; [apply (br_perm _ _ H)|].
    unfold doc_ids, a_leaf; simpl. rewrite ids_l_app, touch_ids. simpl.
    rewrite <- app_assoc. simpl. symmetry. apply Permutation_middle.
  - rewrite (br_parent _ _ H). symmetry. apply touch_frames.
  - rewrite last_id_app. auto.
  - apply (br_cursor _ _ H).
  - rewrite root_first_frames, hd_id_app. auto.
  - rewrite root_last_frames, last_of_snoc. auto.
Qed.

Lemma open_spec b a d sp :
  BR b a ->
  exists b', (match insert F d sp b with
              | (b, Ok id) => (set_b_parent (Some id) b, Ok id)
              | r => r
              end) = (b', match snd (a_open_with F d sp a) with
                          | RNode i => Ok i | _ => Err Overflow end) /\
    BR b' (fst (a_open_with F d sp a)) /\ b_checkpoint b' = b_checkpoint b.
Proof.
  intros H. unfold a_open_with. destruct (full F a) eqn:Hf.
  - rewrite (insert_full _ _ _ _ H Hf). simpl. eauto.
  - destruct (insert_spec _ _ d sp H Hf) as (t & E & L & Q & S1 & S2 & S3 & S4).
    rewrite E. eexists; split; [reflexivity|]. split; auto. constructor; simpl; auto.
    + unfold flat_doc; simpl. destruct (touch_frames (s_end sp) (a_open a)) as (_ & _ & ->).
      apply rep_app in Q as [Q1 Q2]. simpl in Q2. apply rep_cons in Q2 as [Q2 Q3].
      apply rep_cons. split; auto. apply rep_app. auto.
    + eapply perm_snoc; [apply (br_perm _ _ H)|].
      unfold doc_ids; simpl. rewrite touch_ids. auto.
    + apply (br_cursor _ _ H).
    + rewrite root_first_frames. auto.
    + rewrite root_last_frames. auto.
Qed.

(** ** [close] *)
Lemma rlp_open (f : frame T) l : rlp (Nd (f_id f) KOpen (f_data f) (f_span f) l) = f_id f.
Proof. auto. Qed.

Lemma close_spec b a :
  BR b a ->
  exists b', close b = (b', match snd (a_close a) with RUnit => Ok tt | _ => Err CloseError end) /\
    BR b' (fst (a_close a)) /\ b_checkpoint b' = b_checkpoint b.
Proof.
  intros H. pose proof (br_nodup _ _ H) as Hd.
  pose proof H as [H1 H2 H3 H4 H5 H6 H7 H8 H9 H10].
  unfold close, a_close. rewrite H4.
  destruct (a_open a) as [|f fs] eqn:Eo; simpl.
  - eexists; split; [reflexivity|]. auto.
  - unfold flat_doc in H1. rewrite Eo in H1. simpl in H1.
    apply rep_app in H1 as [Hc Hfr]. apply rep_cons in Hfr as [Hh Hfr].
    apply rep_app in Hfr as [Hl Hfr].
    unfold doc_ids in Hd, H3. rewrite Eo in Hd, H3. simpl in Hd, H3.
    apply NoDup_app_iff in Hd as (Hd1 & Hd2 & Hd3).
    inversion Hd2 as [|? ? Hd4 Hd5]; subst.
    apply NoDup_app_iff in Hd5 as (Hd5 & Hd6 & Hd7).
    rewrite in_app_iff in Hd4.
    rewrite Hh. cbn [l_parent l_span].
    set (x := Nd (f_id f) KOpen (f_data f) (f_span f) (a_cur a)).
    assert (Hperm : Permutation
       (ids_l (f_left f ++ [x]) ++ frames_ids fs)
       (seq 0 (a_n a))).
    { rewrite <- H3, ids_l_app. simpl. rewrite app_nil_r, <- app_assoc. simpl.
      fold (ids_l (a_cur a)).
      rewrite <- Permutation_middle.
      rewrite <- Permutation_middle. constructor.
      rewrite !app_assoc. apply Permutation_app_tail. apply Permutation_app_comm. }
    assert (Hx : forall nodes cl, rep nodes (flat_list (level fs) None (f_left f) (Some (f_id f))) ->
        nth_error nodes (f_id f) = Some
         (Links (f_data f) (f_span f) (level fs) (last_id (f_left f) None) None
           (hd_id (a_cur a) None) (last_of lp (a_cur a) None)) ->
        rep nodes (flat_list (Some (f_id f)) None (a_cur a) None) ->
        rep nodes (flat_frames cl (hd_id (f_left f) (Some (f_id f))) (Some (f_id f))) ->
        rep nodes (flat_list (level fs) None (f_left f ++ [x]) None ++
           flat_frames cl (hd_id (f_left f ++ [x]) None)
             (last_of lp (f_left f ++ [x]) None))).
    { intros nodes cl A B C D. rewrite flat_list_app, last_of_snoc, hd_id_app. apply rep_app.
      split; [|apply D]. apply rep_app. split; [apply A|]. unfold x. cbn [flat_list].
      rewrite app_nil_r, flat_eq. apply rep_cons. split; auto. }
    destruct fs as [|g fs].
    + simpl in *. eexists; split; [reflexivity|]. split; auto. constructor; simpl; auto.
      * unfold flat_doc; simpl. rewrite app_nil_r.
        specialize (Hx _ [] Hl Hh Hc (rep_nil _)). simpl in Hx. rewrite app_nil_r in Hx. auto.
      * rewrite last_id_app. auto.
      * rewrite hd_id_app; auto.
      * rewrite last_of_snoc; auto.
    + cbn [level] in *. simpl in Hfr. apply rep_cons in Hfr as [Hg Hfr].
      rewrite Hg. cbn. eexists; split; [reflexivity|]. split; auto.
      assert (Hne : f_id g <> f_id f). { intros E; apply Hd4; right; simpl; auto. }
      constructor; simpl; auto.
      * unfold flat_doc. cbn [a_open a_cur].
        change (level (widen (f_span f) (g :: fs))) with (Some (f_id g)). apply Hx.
        -- apply rep_upd_other; auto. rewrite flat_list_ids. intros Hi. eapply Hd7; eauto. simpl; auto.
        -- rewrite nth_upd_other; auto.
        -- apply rep_upd_other; auto. rewrite flat_list_ids. intros Hi. eapply Hd3; eauto.
           right. apply in_app_iff. right. simpl; auto.
        -- change (rep (upd (t_nodes (b_tree b)) (f_id g) (fun p => set_l_span (span_join (l_span p) (f_span f)) p))
             (flat_frames (widen (f_span f) (g :: fs))
               (hd_id (f_left f) (Some (f_id f))) (Some (f_id f)))).
           eapply rep_touch with (fs := g :: fs).
           ++ simpl. apply rep_cons. split; eauto.
           ++ auto.
           ++ auto.
           ++ exists g, fs. split; auto. eexists. split; reflexivity.
      * rewrite length_upd. auto.
      * rewrite last_id_app. auto.
Qed.

(** ** [close_at] wrapping existing siblings *)
Lemma lp_kwrap id d sp (x : rose T) w :
  lp (Nd id KWrap d sp (x :: w)) =
  match w with
  | [] => if Nat.eqb (lp x) (r_id x) then id else lp x
  | _ => match last_of lp w None with Some i => i | None => id end
  end.
Proof.
  simpl. destruct w as [|y w]; auto. unfold last_of. simpl.
  revert y; induction w as [|u w IH]; intros y; auto. simpl. apply IH.
Qed.
Lemma rlp_kwrap id d sp (x : rose T) w :
  Some (rlp (Nd id KWrap d sp (x :: w))) = last_of rlp (x :: w) None.
Proof.
  simpl. unfold last_of. simpl. revert x; induction w as [|y w IH]; intros x; auto.
  rewrite IH. reflexivity.
Qed.

Lemma last_of_in_lp (f : rose T -> nat) (P : nat -> Prop) l d :
  (forall x, In x l -> P (f x)) -> forall i, last_of f l d = Some i -> P i \/ l = [].
Proof.
  revert d; induction l as [|x l IH]; intros d H i E; auto. left.
  simpl in E. destruct (IH (Some (f x)) (fun y Hy => H y (or_intror Hy)) i E) as [G| ->]; auto.
  simpl in E. injection E as <-. apply H. simpl; auto.
Qed.

Lemma lp_in (t : rose T) : In (lp t) (ids t).
Proof.
  induction t as [id k d sp kids IH] using rose_ind'.
  destruct k; simpl; auto.
  destruct kids as [|x w]; simpl; auto.
  fold (ids_l w).
  change (id = lp (Nd id KWrap d sp (x :: w)) \/
          In (lp (Nd id KWrap d sp (x :: w))) (ids x ++ ids_l w)).
  rewrite lp_kwrap.
  destruct w as [|y w].
  - inversion IH; subst. destruct (Nat.eqb (lp x) (r_id x)); auto.
    right. apply in_app_iff; auto.
  - destruct (last_of lp (y :: w) None) as [i|] eqn:E; auto. right.
    apply in_app_iff. right.
    destruct (last_of_in_lp lp (fun i => In i (ids_l (y :: w))) (y :: w) None) with (i := i)
      as [G|G]; auto; try discriminate.
    intros z Hz. unfold ids_l. apply in_flat_map. exists z. split; auto.
    inversion IH as [|? ? _ IH']; subst.
    eapply Forall_forall in IH'; eauto.
Qed.

Lemma last_id_default_some (l : list (rose T)) i d :
  match last_id l (Some i) with Some j => j | None => d end =
  match last_id l (Some i) with Some j => j | None => i end.
Proof. destruct l as [|x l]; auto. destruct (last_id_cons_some x l (Some i)) as (j & -> & _). auto. Qed.

Lemma last_id_some_eq (l : list (rose T)) i :
  last_id l (Some i) = Some (match last_id l (Some i) with Some j => j | None => i end).
Proof. destruct l as [|x l]; auto. destruct (last_id_cons_some x l (Some i)) as (j & -> & _). auto. Qed.

Lemma wrap_spec b a d osp h addr c pos x w :
  BR b a -> full F a = false ->
  nth_error h addr = Some c -> c_parent c = level (a_open a) -> c_node c = r_id x ->
  skipn pos (a_cur a) = x :: w ->
  let sp := match osp with Some sp => sp | None => run_span x w end in
  exists b',
    close_at_gen F addr d osp h b =
      (upd h addr (fun _ => Cell (a_n a) (level (a_open a))), b', Ok (a_n a)) /\
    BR b' (Doc (firstn pos (a_cur a) ++ [Nd (a_n a) KWrap d sp (x :: w)])
               (a_open a) (S (a_n a)) (a_cursor a) (a_span a) (a_index a) (a_marks a)) /\
    b_checkpoint b' = b_checkpoint b.
Proof.
  intros H Hf Hc Hp Hn Hsk sp. unfold full in Hf.
  pose proof (br_nodup _ _ H) as Hd. pose proof (fun i => br_lt _ _ i H) as Hlt.
  pose proof H as [H1 H2 H3 H4 H5 H6 H7 H8 H9 H10].
  set (base := firstn pos (a_cur a)).
  assert (Ecur : a_cur a = base ++ x :: w) by (rewrite <- Hsk; symmetry; apply firstn_skipn).
  clearbody base. clear Hsk.
  set (n := a_n a) in *. set (lv := level (a_open a)) in *.
  unfold doc_ids in Hd, Hlt, H3. rewrite Ecur, ids_l_app in Hd, Hlt, H3.
  unfold flat_doc in H1. fold lv in H1. rewrite Ecur in *.
  rewrite flat_list_app in H1. cbn [hd_id] in H1.
  apply rep_app in H1 as [Hcur Hfr]. apply rep_app in Hcur as [Hb Hw].
  apply NoDup_app_iff in Hd as (Hd1 & Hd2 & Hd3).
  apply NoDup_app_iff in Hd1 as (Hd1 & Hd4 & Hd5).
  assert (Hxin : In (r_id x) (ids_l (x :: w))) by (apply in_r_id_ids; simpl; auto).
  assert (Hn1 : forall i, In i (ids_l base) -> i < n) by (intros; apply Hlt; rewrite !in_app_iff; auto).
  assert (Hn2 : forall i, In i (ids_l (x :: w)) -> i < n) by (intros; apply Hlt; rewrite !in_app_iff; auto).
  assert (Hn3 : forall i, In i (frames_ids (a_open a)) -> i < n) by (intros; apply Hlt; rewrite !in_app_iff; auto).
  assert (Hd3' : forall i, In i (ids_l (x :: w)) -> ~ In i (frames_ids (a_open a))).
  { intros i Hi. apply Hd3. apply in_app_iff; auto. }
  assert (Hd3'' : forall i, In i (ids_l base) -> ~ In i (frames_ids (a_open a))).
  { intros i Hi. apply Hd3. apply in_app_iff; auto. }
  unfold close_at_gen. rewrite Hc, Hp, H4, opt_nat_eqb_refl. cbn [negb].
  unfold tree_len at 1. rewrite H2, pointer_new_spec, Hf, Hn.
  set (pv := last_id base None) in *.
  assert (exists cf cl, nth_error (t_nodes (b_tree b)) (r_id x) =
     Some (Links (r_data x) (r_span x) lv pv (hd_id w None) cf cl)) as (cf & cl & Ex).
  { cbn [flat_list] in Hw. apply rep_app in Hw as [Hw _].
    destruct x as [idx k dx spx kids]. rewrite flat_eq in Hw. apply rep_cons in Hw as [Hw _].
    simpl. rewrite Hw. eauto. }
  rewrite Ex. cbn [l_parent l_prev l_next l_span].
  unfold tree_upd at 1 2 3. cbn [t_nodes set_t_nodes tree_len].
  set (N0 := upd (t_nodes (b_tree b)) (r_id x)
          (fun l => set_l_prev None (set_l_parent (Some n) l))).
  assert (HlenN0 : length N0 = n) by (unfold N0; rewrite length_upd; auto).
  assert (Hb0 : rep N0 (flat_list lv None base (Some (r_id x)))).
  { apply rep_upd_other; auto. rewrite flat_list_ids. intros Hi. eapply Hd5; eauto. }
  assert (Hfr0 : rep N0 (flat_frames (a_open a) (hd_id (base ++ x :: w) None)
                  (last_of lp (base ++ x :: w) None))).
  { apply rep_upd_other; auto. rewrite flat_frames_ids. eauto. }
  change (ids_l (x :: w)) with (ids x ++ ids_l w) in *.
  apply NoDup_app_iff in Hd4 as (Hd4 & Hd6 & Hd7).
  cbn [flat_list] in Hw. apply rep_app in Hw as [Hwx Hww].
  assert (Hx0 : rep N0 (flat (Some n) None (hd_id w None) x)).
  { eapply rep_set_parent_one; eauto. }
  assert (Hw0 : rep N0 (flat_list lv (Some (r_id x)) w None)).
  { apply rep_upd_other; auto. rewrite flat_list_ids. intros Hi.
    eapply Hd7; eauto. destruct x; simpl; auto. }
  (* restructuring *)
  assert (exists N1,
    (match hd_id w None with
     | Some next => restructure (S (length N0)) n next N0
     | None => (N0, Ok (r_id x, s_end (r_span x)))
     end) = (N1, Ok (match last_id w (Some (r_id x)) with Some i => i | None => r_id x end,
                     run_end x w)) /\
    length N1 = n /\ rep N1 (flat_list (Some n) None (x :: w) None) /\
    rep N1 (flat_list lv None base (Some (r_id x))) /\
    rep N1 (flat_frames (a_open a) (hd_id (base ++ x :: w) None)
                  (last_of lp (base ++ x :: w) None))) as (N1 & EN1 & LN1 & Hw1 & Hb1 & Hfr1).
  { destruct w as [|y w].
    - exists N0. simpl. rewrite app_nil_r. repeat split; auto.
    - cbn [hd_id].
      destruct (restructure_spec w y (S (length N0)) N0 lv (Some (r_id x)) n Hw0 Hd6)
        as (N1 & E & LN & Q & O).
      { rewrite HlenN0.
        assert (Hle : length (map r_id (y :: w)) <= length (seq 0 n)).
        { apply NoDup_incl_length.
          - clear -Hd6. induction (y :: w) as [|z l IH]; simpl; constructor.
            + simpl in Hd6. apply NoDup_app_iff in Hd6 as (_ & _ & Hx).
              intros Hi. eapply Hx; [|apply in_r_id_ids; eauto]. destruct z; simpl; auto.
            + apply IH. simpl in Hd6. apply NoDup_app_iff in Hd6. tauto.
          - intros i Hi. apply in_seq. split; [lia|]. simpl. apply Hn2.
            apply in_app_iff. right. apply in_r_id_ids; auto. }
        rewrite map_length, seq_length in Hle. lia. }
      exists N1. rewrite E. split.
      { cbn [last_id run_end]. rewrite (last_id_default_some w (r_id y) (r_id x)). auto. }
      split; [lia|].
      assert (KeepL : forall L, (forall i, In i (map fst L) -> ~ In i (ids_l (y :: w))) ->
                 rep N0 L -> rep N1 L).
      { intros L HL HrL. unfold rep in HrL |- *. rewrite Forall_forall in HrL |- *.
        intros e He. rewrite O; auto. apply HL. apply in_map. auto. }
      repeat split.
      + cbn [flat_list]. apply rep_app. split; [|exact Q].
        apply KeepL; auto. intros i Hi. rewrite flat_ids in Hi. auto.
      + apply KeepL; auto. intros i Hi. rewrite flat_list_ids in Hi.
        intros Hj. apply (Hd5 i); auto. apply in_app_iff; auto.
      + apply KeepL; auto. intros i Hi. rewrite flat_frames_ids in Hi.
        intros Hj. apply (Hd3' i); auto. apply in_app_iff; auto. }
  change (tree_len (set_t_nodes N0 (b_tree b))) with (length N0).
  rewrite EN1. cbn [t_nodes set_t_nodes].
  assert (Esp : match osp with Some sp0 => sp0 | None => {| s_start := s_start (r_span x); s_end := run_end x w |} end = sp)
    by reflexivity.
  rewrite Esp. clearbody sp. clear Esp EN1.
  set (lst := match last_id w (Some (r_id x)) with Some i => i | None => r_id x end).
  clear Hb0 Hfr0 Hx0 Hw0. clearbody N0. clear Hb Hfr Hwx Hww Ex H1 || clear Hb Hfr Hwx Hww Ex.
  set (W := Nd n KWrap d sp (x :: w)).
  match goal with |- context [set_t_nodes N1 ?t] => set (t0 := set_t_nodes N1 t) end.
  (* parent *)
  match goal with |- context [match lv with Some p => @?s p | None => t0 end] =>
    set (t1 := match lv with Some p => s p | None => t0 end) end.
  assert (HT1 : rep (t_nodes t1) (flat_list (Some n) None (x :: w) None) /\
    rep (t_nodes t1) (flat_list lv None base (Some (r_id x))) /\
    rep (t_nodes t1) (flat_frames (a_open a) (hd_id (base ++ [W]) None) (last_of lp (base ++ [W]) None)) /\
    length (t_nodes t1) = n /\ t_span t1 = a_span a /\ t_indexes t1 = a_index a /\
    t_first t1 = root_first (a_open a) (hd_id (base ++ x :: w) None) /\
    t_last t1 = root_last (a_open a) (last_of rlp (base ++ [W]) None)).
  { assert (Elast : root_last (a_open a) (last_of rlp (base ++ x :: w) None) =
                    root_last (a_open a) (last_of rlp (base ++ [W]) None)).
    { rewrite last_of_snoc. unfold W. rewrite rlp_kwrap, last_of_app.
      simpl. auto. }
    unfold t1, lv in *. destruct (a_open a) as [|f fs] eqn:Eo.
    - simpl in *. repeat split; auto; try constructor. rewrite H10. auto.
    - cbn [level tree_upd] in *.
      cbn [t_nodes t_span t_indexes t_first t_last set_t_nodes tree_upd].
      repeat split; auto.
      + apply rep_upd_other; auto. rewrite flat_list_ids. intros Hi. eapply Hd3'; eauto. simpl; auto.
      + apply rep_upd_other; auto. rewrite flat_list_ids. intros Hi. eapply Hd3''; eauto. simpl; auto.
      + eapply rep_touch with (fs := f :: fs); eauto. exists f, fs. split; auto.
        exists (f_span f). split; [destruct f; auto|].
        (* first and last of the open node *)
        assert (Efirst : (if opt_nat_eqb (hd_id (base ++ x :: w) None) (Some (r_id x))
                          then Some n else hd_id (base ++ x :: w) None) = hd_id (base ++ [W]) None).
        { rewrite !hd_id_app. destruct base as [|y base']; cbn [hd_id].
          - rewrite opt_nat_eqb_refl. auto.
          - destruct (opt_nat_eqb_spec (Some (r_id y)) (Some (r_id x))) as [E|]; auto.
            exfalso. injection E as E. eapply (Hd5 (r_id y)).
            + apply in_r_id_ids; simpl; auto.
            + rewrite E. apply in_app_iff. left. destruct x; simpl; auto. }
        assert (Elp : (if opt_nat_eqb (last_of lp (base ++ x :: w) None) (Some (r_id x))
                          then Some n else last_of lp (base ++ x :: w) None) =
                       last_of lp (base ++ [W]) None).
        { rewrite last_of_snoc. unfold W. rewrite lp_kwrap, last_of_app.
          destruct w as [|y w].
          - simpl. destruct (Nat.eqb_spec (lp x) (r_id x)) as [E|E].
            + rewrite E, opt_nat_eqb_refl. auto.
            + destruct (opt_nat_eqb_spec (Some (lp x)) (Some (r_id x))); congruence.
          - cbn [last_of fold_left].
            change (fold_left (fun _ x => Some (lp x)) w (Some (lp y)))
              with (last_of lp (y :: w) None).
            destruct (last_of lp (y :: w) None) as [i|] eqn:El.
            + destruct (opt_nat_eqb_spec (Some i) (Some (r_id x))) as [E|]; auto.
              exfalso. injection E as ->.
              destruct (last_of_in_lp lp (fun i => In i (ids_l (y :: w))) (y :: w) None) with (i := r_id x)
                as [G|G]; auto; try discriminate.
              * intros z Hz. unfold ids_l. apply in_flat_map. exists z. split; auto. apply lp_in.
              * eapply Hd7; eauto. destruct x; simpl; auto.
            + exfalso. clear -El. revert El.
              assert (G : forall (l : list (rose T)) o, last_of lp l (Some o) <> None).
              { clear. induction l as [|z l IH]; intros o; simpl; [congruence|]. apply (IH (lp z)). }
              simpl. apply G. }
        rewrite <- Efirst, <- Elp.
        cbn [l_first l_last].
        destruct (opt_nat_eqb (hd_id (base ++ x :: w) None) (Some (r_id x))); cbn [l_first l_last set_l_first];
          destruct (opt_nat_eqb (last_of lp (base ++ x :: w) None) (Some (r_id x))); reflexivity.
      + rewrite length_upd; auto. }
  clearbody t1. clear Hw1 Hb1 Hfr1. clearbody t0.
  destruct HT1 as (Q1 & Q2 & Q3 & Q4 & Q5 & Q6 & Q7 & Q8).
  (* previous sibling *)
  match goal with |- context [match pv with Some p => @?s p | None => t1 end] =>
    set (t2 := match pv with Some p => s p | None => t1 end) end.
  assert (HT2 : rep (t_nodes t2) (flat_list (Some n) None (x :: w) None) /\
    rep (t_nodes t2) (flat_list lv None base (Some n)) /\
    rep (t_nodes t2) (flat_frames (a_open a) (hd_id (base ++ [W]) None) (last_of lp (base ++ [W]) None)) /\
    length (t_nodes t2) = n /\ t_span t2 = a_span a /\ t_indexes t2 = a_index a /\
    t_first t2 = root_first (a_open a) (hd_id (base ++ x :: w) None) /\
    t_last t2 = root_last (a_open a) (last_of rlp (base ++ [W]) None)).
  { unfold t2. destruct pv as [p|] eqn:Epv.
    - assert (Hpv : In p (ids_l base)).
      { unfold pv in Epv. destruct base as [|z l]; [discriminate|].
        destruct (last_id_cons_some z l None) as (j & Ej & Hj).
        rewrite Ej in Epv; injection Epv as <-. apply in_r_id_ids; auto. }
      cbn [tree_upd t_nodes t_span t_indexes t_first t_last set_t_nodes].
      repeat split; auto.
      + apply rep_upd_other; auto. rewrite flat_list_ids. intros Hi. eapply Hd5; eauto.
      + eapply rep_set_next'; eauto.
      + apply rep_upd_other; auto. rewrite flat_frames_ids. eauto.
      + rewrite length_upd; auto.
    - repeat split; auto. unfold pv in Epv.
      destruct base as [|z l]; [constructor|].
      destruct (last_id_cons_some z l None) as (j & Ej & Hj). congruence. }
  clearbody t2. clear Q1 Q2 Q3 Q4 Q5 Q6 Q7 Q8. clear t0 t1.
  destruct HT2 as (Q1 & Q2 & Q3 & Q4 & Q5 & Q6 & Q7 & Q8).
  (* tree.first *)
  set (t3 := if opt_nat_eqb (t_first t2) (Some (r_id x)) then set_t_first (Some n) t2 else t2).
  assert (HT3 : t_nodes t3 = t_nodes t2 /\ t_span t3 = a_span a /\ t_indexes t3 = a_index a /\
    t_first t3 = root_first (a_open a) (hd_id (base ++ [W]) None) /\
    t_last t3 = root_last (a_open a) (last_of rlp (base ++ [W]) None)).
  { unfold t3. rewrite Q7. rewrite !hd_id_app. cbn [hd_id].
    destruct (a_open a) as [|f fs] eqn:Eo.
    - cbn [root_first]. destruct base as [|y base']; cbn [hd_id].
      + rewrite opt_nat_eqb_refl. repeat split; auto.
      + destruct (opt_nat_eqb_spec (Some (r_id y)) (Some (r_id x))) as [E|].
        * exfalso. injection E as E. eapply (Hd5 (r_id y)).
          -- apply in_r_id_ids; simpl; auto.
          -- rewrite E. auto.
        * repeat split; auto.
    - cbn [root_first].
      destruct (opt_nat_eqb_spec (root_first fs (hd_id (f_left f) (Some (f_id f)))) (Some (r_id x)))
        as [E|].
      + exfalso.
        assert (G : forall fs cf, root_first fs cf = Some (r_id x) ->
                 cf = Some (r_id x) \/ In (r_id x) (@frames_ids T fs)).
        { clear. induction fs as [|g fs IH]; intros cf E; auto. simpl in *.
          right. destruct (IH _ E) as [E'|E'].
          - destruct (f_left g) as [|y l]; simpl in *; injection E' as <-; auto.
            right. apply in_app_iff. left. apply in_app_iff. left. destruct y; simpl; auto.
          - right. apply in_app_iff. auto. }
        eapply Hd3'; [apply Hxin|].
        destruct (G _ _ E) as [E'|E']; simpl.
        * destruct (f_left f) as [|y l]; simpl in *; injection E' as <-; auto.
          right. apply in_app_iff. left. apply in_app_iff. left. destruct y; simpl; auto.
        * right. apply in_app_iff; auto.
      + repeat split; auto. }
  destruct HT3 as (P1 & P2 & P3 & P4 & P5). clearbody t3.
  unfold tree_push. destruct HF as [HS _]. rewrite HS. cbn [storage_push option_map].
  eexists. split; [reflexivity|]. split; [|reflexivity].
  constructor; simpl; auto.
  - rewrite P1. unfold flat_doc; cbn [a_open a_cur]. fold lv.
    rewrite flat_list_app. cbn [hd_id r_id flat_list]. rewrite app_nil_r.
    apply rep_app. split; [apply rep_app; split|].
    + apply rep_push. auto.
    + unfold W. rewrite flat_eq. apply rep_cons. split; [|apply rep_push; auto].
      rewrite nth_error_app2 by lia. rewrite Q4, Nat.sub_diag. simpl. do 2 f_equal.
      fold pv. unfold lst. rewrite <- last_id_some_eq. auto.
    + apply rep_push. auto.
  - rewrite P1, app_length; simpl. lia.
  - eapply perm_snoc; [apply H3|]. unfold doc_ids; cbn [a_open a_cur].
    rewrite ids_l_app. unfold W. simpl. rewrite app_nil_r. fold (ids_l w).
    rewrite <- !app_assoc. cbn [app]. rewrite <- !app_assoc.
    symmetry. apply Permutation_middle.
  - rewrite last_id_app. auto.
Qed.

(** ** All calls *)
Lemma kids_leaf d sp a : kids_of (a_leaf d sp a) = kids_of a ++ [S (a_n a)].
Proof. unfold kids_of, a_leaf; simpl. rewrite map_app. auto. Qed.

Lemma marks_leaf h memo env a d sp :
  marks_inv h memo env (a_marks a) (a_open a) (kids_of a) (a_n a) ->
  marks_inv h memo env (a_marks a) (touch (s_end sp) (a_open a)) (kids_of (a_leaf d sp a)) (S (a_n a)).
Proof.
  intros H. rewrite kids_leaf.
  destruct (touch_frames (s_end sp) (a_open a)) as (E1 & E2 & _).
  eapply marks_frames; [symmetry; apply E1|symmetry; apply E2|].
  apply marks_insert with (n := a_n a); auto.
Qed.

Lemma push_index_some (t : tree T) ix i :
  tree_push_index F ix i t =
  Some (set_t_indexes (match fl_indexes F with SEmptyVec => t_indexes t
                       | _ => t_indexes t ++ [(ix, i)] end) t).
Proof.
  unfold tree_push_index. destruct HF as [_ [E|E]]; rewrite E; auto.
Qed.

Lemma BR_push_index b a ix i :
  BR b a ->
  BR (set_b_tree (set_t_indexes (match fl_indexes F with SEmptyVec => t_indexes (b_tree b)
                       | _ => t_indexes (b_tree b) ++ [(ix, i)] end) (b_tree b)) b)
     (push_index F ix i a).
Proof.
  intros [H1 H2 H3 H4 H5 H6 H7 H8 H9 H10]. constructor; auto.
  simpl. rewrite H8. auto.
Qed.

Lemma BR_move b a c : BR b a -> BR (set_b_cursor c b) (move c a).
Proof. intros [H1 H2 H3 H4 H5 H6 H7 H8 H9 H10]. constructor; auto. Qed.
Lemma BR_stretch b a c : BR b a ->
  BR (set_b_tree (set_t_span (set_end (t_span (b_tree b)) c) (b_tree b)) b) (stretch c a).
Proof. intros [H1 H2 H3 H4 H5 H6 H7 H8 H9 H10]. constructor; auto. simpl. rewrite H7; auto. Qed.

Lemma BR_widen b a sp : BR b a ->
  BR (set_b_tree (match b_parent b with
                  | Some p => tree_upd p (fun l => set_l_span (span_join (l_span l) sp) l) (b_tree b)
                  | None => b_tree b end) b)
     (Doc (a_cur a) (widen sp (a_open a)) (a_n a) (a_cursor a) (a_span a) (a_index a) (a_marks a)).
Proof.
  intros H. pose proof (br_nodup _ _ H) as Hd.
  destruct H as [H1 H2 H3 H4 H5 H6 H7 H8 H9 H10].
  rewrite H4. destruct (a_open a) as [|f fs] eqn:Eo.
  - constructor; simpl; auto.
    + unfold flat_doc in *; rewrite Eo in H1; auto.
    + unfold doc_ids in *; rewrite Eo in H3; auto.
  - unfold flat_doc, doc_ids in *; rewrite Eo in *.
    cbn [level] in *. constructor; cbn [a_cur a_open a_n a_cursor a_span a_index a_marks b_tree
      b_parent b_sibling b_cursor set_b_tree tree_upd t_nodes set_t_nodes t_span t_indexes t_first t_last]; auto.
    + unfold flat_doc; cbn [a_cur a_open].
      apply rep_app in H1 as [Hc Hf]. apply NoDup_app_iff in Hd as (Hd1 & Hd2 & Hd3).
      apply rep_app. split.
      * apply rep_upd_other; auto. rewrite flat_list_ids. intros Hi. eapply Hd3; eauto. simpl; auto.
      * eapply rep_touch with (fs := f :: fs); eauto. exists f, fs. split; auto.
        eexists. split; reflexivity.
    + rewrite length_upd; auto.
Qed.

Lemma token_spec b a d len :
  BR b a ->
  exists b', token F d len b =
    (b', match snd (a_token F d len a) with RNode i => Ok i | _ => Err Overflow end) /\
    BR b' (fst (a_token F d len a)) /\ b_checkpoint b' = b_checkpoint b.
Proof.
  intros H. unfold token, a_token. rewrite (br_cursor _ _ H).
  destruct (len_is_empty F len) eqn:El.
  - destruct (full F a) eqn:Hf.
    + rewrite (insert_full _ _ _ _ H Hf). simpl. eauto.
    + destruct (leaf_spec _ _ d (Span (a_cursor a) (a_cursor a)) H Hf) as (t & E & B).
      rewrite E. eexists; split; [reflexivity|]. split; auto.
  - destruct (ix_checked_add_len F (a_cursor a) len) as [c|] eqn:Ec.
    2:{ simpl. eauto. }
    set (b1 := set_b_cursor c b).
    set (b2 := set_b_tree (set_t_span (set_end (t_span (b_tree b1)) c) (b_tree b1)) b1).
    assert (H2 : BR b2 (stretch c (move c a))).
    { unfold b2. apply BR_stretch. apply BR_move. auto. }
    assert (Eb : b_cursor b2 = c) by reflexivity. rewrite Eb.
    destruct (full F a) eqn:Hf.
    + rewrite (insert_full _ _ _ _ H2 Hf). simpl. eexists; split; [reflexivity|]. auto.
    + destruct (leaf_spec _ _ d (Span (a_cursor a) c) H2 Hf) as (t & E & B).
      rewrite E. cbn [snd fst].
      cbv zeta. rewrite push_index_some.
      eexists; split; [reflexivity|]. split; auto.
      apply (BR_push_index _ _ c (a_n a)) in B. exact B.
Qed.

Lemma token_with_spec b a d sp :
  BR b a ->
  exists b', token_with F d sp b =
    (b', match snd (a_token_with F d sp a) with RNode i => Ok i | _ => Err Overflow end) /\
    BR b' (fst (a_token_with F d sp a)) /\ b_checkpoint b' = b_checkpoint b.
Proof.
  intros H. unfold token_with, a_token_with. destruct (full F a) eqn:Hf.
  - rewrite (insert_full _ _ _ _ H Hf). simpl. eauto.
  - destruct (leaf_spec _ _ d sp H Hf) as (t & E & B).
    rewrite E. cbn [snd fst]. cbv zeta. rewrite push_index_some.
    eexists; split; [reflexivity|]. split.
    + apply (BR_push_index _ _ (s_start sp) (a_n a)) in B.
      apply (BR_widen _ _ sp) in B. apply (BR_move _ _ (s_end sp)) in B. exact B.
    + reflexivity.
Qed.

Lemma kids_nodup a b : BR b a -> NoDup (kids_of a).
Proof.
  intros H. pose proof (br_nodup _ _ H) as Hd. unfold doc_ids in Hd.
  apply NoDup_app_iff in Hd as (Hd & _ & _).
  unfold kids_of. apply NoDup_app_iff. split; [|split].
  - clear H. induction (a_cur a) as [|x l IH]; simpl in *; constructor;
      apply NoDup_app_iff in Hd as (Hd1 & Hd2 & Hd3); auto.
    intros Hi. eapply Hd3; [|apply in_r_id_ids; eauto]. destruct x; simpl; auto.
  - constructor; simpl; auto. constructor.
  - intros i Hi [<-|[]]. apply in_r_id_ids in Hi.
    assert (a_n a < a_n a); [|lia]. apply (br_lt _ _ _ H). apply in_app_iff; auto.
Qed.

Lemma opens_nodup a b : BR b a -> NoDup (open_ids (a_open a)).
Proof.
  intros H. apply open_ids_nodup. pose proof (br_nodup _ _ H) as Hd.
  apply NoDup_app_iff in Hd. tauto.
Qed.

Lemma pos_ok_cur (a : doc T) p node :
  pos_ok (a_open a) (kids_of a) (level (a_open a)) p node -> nth_error (kids_of a) p = Some node.
Proof. destruct (a_open a); simpl; intros [H _]; auto. Qed.

Lemma close_at_step w a k d osp a' r :
  R w a -> a_close_at F k d osp a = Some (a', r) ->
  exists w', (match nth_error (w_env w) k with
      | None => (w, RNoHandle)
      | Some ad => let '(h, b, r) := close_at_gen F ad d osp (w_heap w) (w_builder w) in
                   (World h b (w_env w), out_node r)
      end) = (w', r) /\ R w' a'.
Proof.
  intros [HB HM] H. unfold a_close_at in H.
  pose proof (mi_ok _ _ _ _ _ _ _ HM) as Hok.
  destruct (nth_error (a_marks a) k) as [m|] eqn:Em.
  2:{ injection H as <- <-.
      assert (nth_error (w_env w) k = None) as ->.
      { apply nth_error_None. apply nth_error_None in Em.
        rewrite (Forall2_length _ _ _ Hok). auto. }
      eexists; split; [reflexivity|]. constructor; auto. }
  destruct (Forall2_nth _ _ _ _ _ Hok Em) as (ad & Ead & c & Hc & Hp & Hl & Hx).
  rewrite Ead.
  destruct (opt_nat_eqb_spec (mark_level m) (level (a_open a))) as [Elv|Elv]; cbn [negb] in H.
  2:{ injection H as <- <-. unfold close_at_gen. rewrite Hc, Hp, (br_parent _ _ HB).
      destruct (opt_nat_eqb_spec (mark_level m) (level (a_open a))); [congruence|].
      eexists; split; [reflexivity|]. destruct w; constructor; auto. }
  destruct (full F a) eqn:Hf.
  { injection H as <- <-. unfold close_at_gen. rewrite Hc, Hp, (br_parent _ _ HB), Elv.
    rewrite opt_nat_eqb_refl. cbn [negb]. unfold tree_len.
    rewrite (br_len _ _ HB), pointer_new_spec. unfold full in Hf. rewrite Hf.
    eexists; split; [reflexivity|]. destruct w; constructor; auto. }
  destruct m as [l pos|l]; [|discriminate]. simpl in Elv, Hp. rewrite Elv in *. clear l Elv.
  apply pos_ok_cur in Hx.
  destruct (skipn pos (a_cur a)) as [|x wr] eqn:Esk.
  - (* nothing to wrap *)
    injection H as <- <-.
    assert (Hpos : pos = length (a_cur a)).
    { assert (pos < length (kids_of a)) by (apply nth_error_Some; congruence).
      unfold kids_of in H. rewrite app_length, map_length in H; simpl in H.
      assert (length (skipn pos (a_cur a)) = 0) by (rewrite Esk; auto).
      rewrite skipn_length in H0. lia. }
    assert (Hnode : c_node c = a_n a).
    { unfold kids_of in Hx. rewrite nth_error_app2 in Hx; rewrite map_length in *; [|lia].
      rewrite Hpos, Nat.sub_diag in Hx. simpl in Hx. congruence. }
    unfold close_at_gen. rewrite Hc, Hp, (br_parent _ _ HB), opt_nat_eqb_refl. cbn [negb].
    unfold tree_len. rewrite (br_len _ _ HB), pointer_new_spec. unfold full in Hf. rewrite Hf.
    rewrite Hnode.
    assert (nth_error (t_nodes (b_tree (w_builder w))) (a_n a) = None) as ->.
    { apply nth_error_None. rewrite (br_len _ _ HB). auto. }
    rewrite (br_cursor _ _ HB).
    destruct (leaf_spec _ _ d (match osp with Some sp => sp | None => span_point (a_cursor a) end) HB Hf)
      as (t & E & B).
    rewrite E, Nat.eqb_refl. eexists; split; [reflexivity|].
    constructor; [exact B|]. cbn. apply marks_leaf. auto.
  - injection H as <- <-.
    assert (Hnode : c_node c = r_id x).
    { assert (Ecur : a_cur a = firstn pos (a_cur a) ++ x :: wr)
        by (rewrite <- Esk; symmetry; apply firstn_skipn).
      assert (Hlen : length (firstn pos (a_cur a)) = pos).
      { apply firstn_length_le. destruct (Nat.le_gt_cases pos (length (a_cur a))); auto.
        rewrite skipn_all2 in Esk by lia. discriminate. }
      unfold kids_of in Hx. rewrite Ecur, map_app in Hx.
      rewrite <- app_assoc, nth_error_app2 in Hx; rewrite map_length, Hlen in *; [|lia].
      rewrite Nat.sub_diag in Hx. simpl in Hx. congruence. }
    destruct (wrap_spec _ _ d osp _ _ _ _ _ _ HB Hf Hc Hp Hnode Esk) as (b' & E & B & Ec).
    rewrite E. eexists; split; [reflexivity|].
    constructor.
    + cbn [w_builder]. destruct B as [B1 B2 B3 B4 B5 B6 B7 B8 B9 B10]. constructor; auto.
    + cbn [w_heap w_builder w_env a_marks a_open a_n]. rewrite Ec.
      assert (Ecur : a_cur a = firstn pos (a_cur a) ++ x :: wr)
        by (rewrite <- Esk; symmetry; apply firstn_skipn).
      assert (Hlen : length (firstn pos (a_cur a)) = pos).
      { apply firstn_length_le. destruct (Nat.le_gt_cases pos (length (a_cur a))); auto.
        rewrite skipn_all2 in Esk by lia. discriminate. }
      assert (Ek : kids_of a = map r_id (firstn pos (a_cur a)) ++ map r_id (x :: wr) ++ [a_n a]).
      { unfold kids_of. rewrite Ecur at 1. rewrite map_app, app_assoc. auto. }
      unfold kids_of; cbn [a_cur a_n]. rewrite map_app, <- app_assoc. cbn [map r_id].
      eapply marks_wrap with (w := map r_id (x :: wr)).
      * rewrite <- Ek. auto.
      * rewrite <- Ek. eapply kids_nodup; eauto.
      * eapply opens_nodup; eauto.
      * eauto.
      * auto.
      * rewrite map_length. auto.
      * discriminate.
Qed.

Lemma checkpoint_step w a :
  R w a ->
  exists w', step F w OCheckpoint = (w', snd (a_checkpoint F a)) /\ R w' (fst (a_checkpoint F a)).
Proof.
  intros [HB HM]. unfold step, checkpoint, a_checkpoint, tree_len.
  rewrite (br_len _ _ HB), pointer_new_spec. fold (full F a).
  unfold full. destruct (N.leb (int_max F (fl_width F)) (N.of_nat (a_n a))) eqn:Hf.
  { eexists; split; [reflexivity|]. destruct w; constructor; auto. }
  rewrite (br_parent _ _ HB).
  assert (Hlv : forall i, level (a_open a) = Some i -> i < a_n a).
  { intros i Hi. apply (br_lt _ _ _ HB). apply in_app_iff. right. apply level_in; auto. }
  assert (Ho := opens_nodup _ _ HB).
  assert (Hfresh : (forall a0 c, b_checkpoint (w_builder w) = Some a0 -> nth_error (w_heap w) a0 = Some c ->
     c_node c = a_n a -> c_parent c = level (a_open a) -> False) ->
     R (World (w_heap w ++ [Cell (a_n a) (level (a_open a))])
          (set_b_checkpoint (Some (length (w_heap w))) (w_builder w))
          (w_env w ++ [length (w_heap w)]))
       (Doc (a_cur a) (a_open a) (a_n a) (a_cursor a) (a_span a) (a_index a)
            (a_marks a ++ [MAt (level (a_open a)) (length (a_cur a))]))).
  { intros Hm. constructor.
    - destruct HB as [B1 B2 B3 B4 B5 B6 B7 B8 B9 B10]. constructor; auto.
    - cbn [w_heap w_builder w_env b_checkpoint set_b_checkpoint a_marks a_open a_n].
      unfold kids_of in *; cbn [a_cur a_n].
      rewrite <- (map_length r_id (a_cur a)). eapply marks_fresh; eauto. }
  destruct (b_checkpoint (w_builder w)) as [ad|] eqn:Eck.
  - destruct (nth_error (w_heap w) ad) as [c|] eqn:Ec.
    + destruct (Nat.eqb_spec (c_node c) (a_n a)), (opt_nat_eqb_spec (c_parent c) (level (a_open a)));
        cbn [andb]; cbv zeta.
      * eexists; split; [reflexivity|]. constructor.
        -- cbn [w_builder]. destruct HB as [B1 B2 B3 B4 B5 B6 B7 B8 B9 B10]. constructor; auto.
        -- cbn [fst a_marks a_open a_n w_heap w_builder w_env]. rewrite Eck.
           unfold kids_of in *; cbn [a_cur a_n].
           rewrite <- (map_length r_id (a_cur a)). eapply marks_hit; eauto.
      * eexists; split; [reflexivity|]. apply Hfresh. intros a0 c0 E1 E2. congruence.
      * eexists; split; [reflexivity|]. apply Hfresh. intros a0 c0 E1 E2. congruence.
      * eexists; split; [reflexivity|]. apply Hfresh. intros a0 c0 E1 E2. congruence.
    + cbv zeta. eexists; split; [reflexivity|]. apply Hfresh. intros a0 c0 E1 E2. congruence.
  - cbv zeta. eexists; split; [reflexivity|]. apply Hfresh. intros a0 c0 E1 E2. congruence.
Qed.

Lemma marks_token h memo env a d len :
  marks_inv h memo env (a_marks a) (a_open a) (kids_of a) (a_n a) ->
  let a' := fst (a_token F d len a) in
  marks_inv h memo env (a_marks a') (a_open a') (kids_of a') (a_n a').
Proof.
  intros H. unfold a_token. destruct (len_is_empty F len).
  - destruct (full F a); cbn [fst]; auto.
    exact (marks_leaf _ _ _ _ d (Span (a_cursor a) (a_cursor a)) H).
  - destruct (ix_checked_add_len F (a_cursor a) len) as [c|]; cbn [fst]; auto.
    destruct (full F a); cbn [fst]; auto. exact (marks_leaf _ _ _ _ d (Span (a_cursor a) c) H).
Qed.

Lemma out_token (a : doc T) d len :
  out_node (match snd (a_token F d len a) with RNode i => Ok i | _ => Err Overflow end)
  = snd (a_token F d len a).
Proof.
  unfold a_token. destruct (len_is_empty F len); [destruct (full F a); auto|].
  destruct (ix_checked_add_len F (a_cursor a) len); auto. destruct (full F a); auto.
Qed.

Theorem step_refines w a o a' r :
  R w a -> a_step F a o = Some (a', r) ->
  exists w', step F w o = (w', r) /\ R w' a'.
Proof.
  intros [HB HM] H.
  assert (Open : forall d sp,
    exists w', (let '(b, r) := (match insert F d sp (w_builder w) with
              | (b, Ok id) => (set_b_parent (Some id) b, Ok id)
              | r => r
              end) in (World (w_heap w) b (w_env w), out_node r)) =
       (w', snd (a_open_with F d sp a)) /\ R w' (fst (a_open_with F d sp a))).
  { intros d sp. destruct (open_spec _ _ d sp HB) as (b' & E & B & Ec). rewrite E.
    eexists. split.
    - f_equal. unfold a_open_with. destruct (full F a); auto.
    - constructor; auto. cbn [w_heap w_builder w_env]. rewrite Ec.
      unfold a_open_with. destruct (full F a); auto. cbn [fst a_marks a_open a_n].
      unfold kids_of; cbn [a_cur a_n map app].
      destruct (touch_frames (s_end sp) (a_open a)) as (E1 & E2 & E3).
      eapply marks_open; [|reflexivity|reflexivity]. cbn [f_left].
      eapply marks_frames; [symmetry; apply E1|symmetry; apply E2|]. exact HM. }
  destruct o; cbn [a_step] in H.
  - injection H as H. destruct (Open d (span_point (a_cursor a))) as (w' & E & Hw).
    rewrite H in E, Hw. exists w'. split; auto. unfold step, open.
    rewrite (br_cursor _ _ HB). exact E.
  - injection H as H. destruct (Open d sp) as (w' & E & Hw).
    rewrite H in E, Hw. exists w'. split; auto.
  - injection H as H. destruct (close_spec _ _ HB) as (b' & E & B & Ec).
    rewrite H in E, B. unfold step. rewrite E. eexists. split.
    + f_equal. unfold a_close in H. destruct (a_open a); injection H as <- <-; auto.
    + constructor; auto. cbn [w_heap w_builder w_env]. rewrite Ec.
      unfold a_close in H. destruct (a_open a) as [|f fs] eqn:Eo; injection H as <- <-.
      * rewrite Eo; auto.
      * cbn [fst a_marks a_open a_n]. unfold kids_of; cbn [a_cur a_n].
        destruct (widen_frames (f_span f) fs) as (E1 & E2 & _).
        eapply marks_frames; [symmetry; apply E1|symmetry; apply E2|].
        rewrite map_app, <- app_assoc. eapply marks_close; eauto.
  - injection H as H. destruct (token_spec _ _ d len HB) as (b' & E & B & Ec).
    unfold step. rewrite E, out_token. pose proof (marks_token _ _ _ _ d len HM) as HM'.
    rewrite H in B, HM' |- *. eexists. split; [reflexivity|].
    constructor; auto. cbn [w_heap w_builder w_env]. rewrite Ec. auto.
  - injection H as H. destruct (token_spec _ _ d len_EMPTY HB) as (b' & E & B & Ec).
    unfold step, token_empty. rewrite E, out_token.
    pose proof (marks_token _ _ _ _ d len_EMPTY HM) as HM'. unfold len_EMPTY in *.
    rewrite H in B, HM' |- *. eexists. split; [reflexivity|].
    constructor; auto. cbn [w_heap w_builder w_env]. rewrite Ec. auto.
  - injection H as H. destruct (token_with_spec _ _ d sp HB) as (b' & E & B & Ec).
    unfold step. rewrite E. unfold a_token_with in *.
    destruct (full F a); injection H as <- <-; (eexists; split; [reflexivity|]);
      (constructor; auto; cbn [w_heap w_builder w_env]; rewrite Ec; auto).
    pose proof (marks_leaf _ _ _ _ d sp HM) as HM'.
    destruct (widen_frames sp (touch (s_end sp) (a_open a))) as (E1 & E2 & _).
    eapply marks_frames; [symmetry; apply E1|symmetry; apply E2|]. exact HM'.
  - injection H as H. destruct (checkpoint_step w a) as (w' & E & Hw); [constructor; auto|].
    rewrite H in E, Hw. eauto.
  - eapply close_at_step; eauto. constructor; auto.
  - eapply close_at_step; eauto. constructor; auto.
  - injection H as <- <-. eexists; split; [reflexivity|].
    constructor; auto. apply BR_move; auto.
Qed.

Theorem run_refines ops : forall w a a' rs,
  R w a -> a_run F a ops = Some (a', rs) ->
  exists w', run F w ops = (w', rs) /\ R w' a'.
Proof.
  induction ops as [|o ops IH]; intros w a a' rs HR H; simpl in *.
  - injection H as <- <-. eauto.
  - destruct (a_step F a o) as [[a1 r]|] eqn:E1; [|discriminate].
    destruct (a_run F a1 ops) as [[a2 rs']|] eqn:E2; [|discriminate]. injection H as <- <-.
    destruct (step_refines _ _ _ _ _ HR E1) as (w1 & F1 & HR1).
    destruct (IH _ _ _ _ HR1 E2) as (w2 & F2 & HR2).
    rewrite F1, F2. eauto.
Qed.

Lemma R_new : R world_new doc_new.
Proof.
  constructor.
  - constructor; simpl; auto. apply rep_nil.
  - constructor; simpl; auto.
    + intros [|k1] k2; simpl; discriminate.
    + intros [|k]; simpl; discriminate.
Qed.

Theorem refines ops a rs :
  describes F ops a rs ->
  exists w, run F world_new ops = (w, rs) /\ R w a.
Proof. intros H. eapply run_refines; eauto. apply R_new. Qed.

End Refine.
