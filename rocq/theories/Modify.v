(** How [ChangeSet::modify] produces its output. *)
From Coq Require Import Lia Permutation.
From Verif Require Import Base Pointer Index Tree Builder Hist Node Iter Edit Spec SpecEq SpecRange SpecEdit Rep Marks Refine TreeRep
  Enum Walk WalkTree WalkThms Nav.

(** ** Commuting updates *)
Lemma upd_comm {A} (l : list A) i j f g : (forall x, f (g x) = g (f x)) -> upd (upd l i f) j g = upd (upd l j g) i f.
Proof.
  intros H. revert i j; induction l as [|x l IH]; intros [|i] [|j]; simpl; auto; f_equal; auto.
Qed.

Section Out.
Context {T : Type}.
Variable F : flavor.
Hypothesis HF : vec_flavor F.

(** The output tree, seen as the tree of a builder. *)
Definition bld (o : tree T) (a : doc T) : builder T :=
  Builder o None (level (a_open a)) (last_id (a_cur a) None) (a_cursor a).
Definition holds (o : tree T) (a : doc T) : Prop := BR (bld o a) a.

Lemma holds_new : holds tree_new doc_new.
Proof. constructor; simpl; auto. apply rep_nil. Qed.

Definition emitted (n : node T) (c c' : N) : span :=
  if negb (has_children n) && negb (span_is_empty (node_span n)) then Span c c' else span_point c.

Definition with_index (n : node T) (a : doc T) : doc T :=
  if negb (has_children n) && negb (span_is_empty (node_span n)) then push_index F (a_cursor a) (a_n a) a else a.

Lemma holds_index o a : holds o a -> exists o', tree_push_index F (a_cursor a) (a_n a) o = Some o' /\
  holds o' (push_index F (a_cursor a) (a_n a) a) /\ t_nodes o' = t_nodes o /\ t_first o' = t_first o /\ t_last o' = t_last o.
Proof.
  intros H. destruct HF as [_ HI]. unfold tree_push_index. destruct H as [H1 H2 H3 H4 H5 H6 H7 H8 H9 H10].
  destruct HI as [HI|HI]; rewrite HI; cbn [storage_push option_map]; eexists; (split; [reflexivity|]);
    (split; [|auto]); constructor; simpl in *; rewrite ?HI; auto; congruence.
Qed.

(** [emit] is [insert] (after the index entry). *)
Lemma emit_insert (r : refactor T) (o : tree T) (a : doc T) (n : node T) (first : bool) (c' : N) (id : nat) :
  holds o a -> full F a = false -> id = a_n a ->
  match r_parents r with [] => None | (_, p) :: _ => Some p end = level (a_open a) ->
  (if first then None else r_prev r) = last_id (a_cur a) None ->
  (negb (has_children n) && negb (span_is_empty (node_span n)) = true ->
   ix_checked_add_len F (a_cursor a) (span_len F (node_span n)) = Some c') ->
  exists o1 o', holds o1 (with_index n a) /\
    emit F r o (a_cursor a) id n first =
      ((Refactor (r_parents r) (if first then r_prev r else None), o',
        if negb (has_children n) && negb (span_is_empty (node_span n)) then c' else a_cursor a), Ok tt) /\
    insert F (node_value n) (emitted n (a_cursor a) c') (bld o1 (with_index n a)) =
      (set_b_tree o' (set_b_sibling None (bld o1 (with_index n a))), Ok id).
Proof.
  intros H Hf -> Hp Hs Hc. pose proof (br_len _ _ H) as HL. simpl in HL.
  assert (HI : exists o1, holds o1 (with_index n a) /\
    (if negb (has_children n) && negb (span_is_empty (node_span n)) then tree_push_index F (a_cursor a) (a_n a) o = Some o1 else o1 = o) /\
    t_nodes o1 = t_nodes o /\ t_first o1 = t_first o /\ t_last o1 = t_last o).
  { unfold with_index. destruct (negb (has_children n) && negb (span_is_empty (node_span n))); [|exists o; auto].
    destruct (holds_index o a H) as (o1 & E & H1 & N1). exists o1. auto. }
  destruct HI as (o1 & H1 & E1 & N1 & N2 & N3).
  assert (Ew : level (a_open (with_index n a)) = level (a_open a) /\ last_id (a_cur (with_index n a)) None = last_id (a_cur a) None /\ a_cursor (with_index n a) = a_cursor a).
  { unfold with_index. destruct (negb _ && negb _); auto. }
  destruct Ew as (W1 & W2 & W3).
  set (par := level (a_open a)) in *. set (prev := last_id (a_cur a) None) in *.
  set (sp := emitted n (a_cursor a) c').
  (* the output *)
  set (links_touch := fun l : links T =>
          let l := match l_first l with None => set_l_first (Some (a_n a)) l | Some _ => l end in
          let l := set_l_last (Some (a_n a)) l in set_l_span (set_end (l_span l) (s_end sp)) l).
  set (new := Links (node_value n) sp par prev None None None).
  set (rooted := fun t : tree T => match par with
     | None => set_t_last (Some (a_n a)) (match t_first t with None => set_t_first (Some (a_n a)) t | Some _ => t end)
     | Some _ => t end).
  exists o1. exists (rooted (set_t_nodes
     (match prev with Some p => upd (match par with Some q => upd (t_nodes o ++ [new]) q links_touch | None => t_nodes o ++ [new] end) p (set_l_next (Some (a_n a)))
      | None => match par with Some q => upd (t_nodes o ++ [new]) q links_touch | None => t_nodes o ++ [new] end end) o1)).
  split; [exact H1|].
  assert (Lt : forall q, par = Some q -> q < length (t_nodes o)).
  { intros q Hq. rewrite HL. apply (br_lt _ _ q H). unfold doc_ids. apply in_app_iff. right. apply level_in. exact Hq. }
  assert (Lp : forall q, prev = Some q -> q < length (t_nodes o)).
  { intros q Hq. rewrite HL. apply (br_lt _ _ q H). unfold doc_ids. apply in_app_iff. left.
    unfold prev in Hq. destruct (a_cur a) as [|x l]; [discriminate|].
    destruct (last_id_cons_some x l None) as (j & Ej & Hj). rewrite Ej in Hq; injection Hq as <-. apply in_r_id_ids; auto. }
  assert (Fc : forall x : links T, links_touch (set_l_next (Some (a_n a)) x) = set_l_next (Some (a_n a)) (links_touch x)).
  { intros [? ? ? ? ? [?|] ?]; reflexivity. }
  split.
  - unfold emit. destruct HF as [HS _].
    set (o2 := match r_parents r with [] => _ | _ => o end).
    assert (Eo2 : o2 = rooted o).
    { unfold o2, rooted. destruct (r_parents r) as [|[q pid] ps]; simpl in Hp; rewrite <- Hp; auto. }
    clearbody o2. subst o2.
    assert (Epair : (if first then (r, None, rooted o)
       else (Refactor (r_parents r) None, r_prev r,
         match r_prev r with Some p => tree_upd p (set_l_next (Some (a_n a))) (rooted o) | None => rooted o end)) =
       (Refactor (r_parents r) (if first then r_prev r else None), prev,
        match prev with Some p => tree_upd p (set_l_next (Some (a_n a))) (rooted o) | None => rooted o end)).
    { destruct first; rewrite <- Hs; [destruct r; auto|auto]. }
    cbv zeta. rewrite Epair. clear Epair. cbn [r_parents].
    set (o3 := match prev with Some p => tree_upd p (set_l_next (Some (a_n a))) (rooted o) | None => rooted o end).
    assert (Ei : negb (has_children n) && negb (span_is_empty (node_span n)) = true ->
       tree_push_index F (a_cursor a) (a_n a) o3 = Some (set_t_indexes (t_indexes o1) o3)).
    { intros Hb. rewrite Hb in E1. unfold tree_push_index in *.
      assert (t_indexes o3 = t_indexes o) as ->.
      { unfold o3, rooted. destruct prev, par; simpl; auto; destruct (t_first o); auto. }
      destruct (storage_push (fl_indexes F) (t_indexes o) (a_cursor a, a_n a)); [|discriminate].
      simpl in E1 |- *. injection E1 as <-. reflexivity. }
    set (o4 := if negb (has_children n) && negb (span_is_empty (node_span n)) then set_t_indexes (t_indexes o1) o3 else o3).
    match goal with |- context [match ?m with inl _ => _ | inr _ => _ end] =>
      assert (Em : m = inl (o4, if negb (has_children n) && negb (span_is_empty (node_span n)) then c' else a_cursor a, sp)) end.
    { unfold o4, sp, emitted. destruct (negb (has_children n) && negb (span_is_empty (node_span n))); auto.
      rewrite (Ei eq_refl), (Hc eq_refl). auto. }
    rewrite Em. clear Em. rewrite Hp. fold new. fold links_touch.
    assert (Eo4 : o4 = set_t_nodes (match prev with Some p => upd (t_nodes o) p (set_l_next (Some (a_n a))) | None => t_nodes o end) (rooted o1)).
    { unfold o4, o3, rooted. clear -E1 N1 N2 N3. destruct o as [nd sp0 ix fi la], o1 as [nd1 sp1 ix1 fi1 la1]. simpl in N1, N2, N3. subst.
      destruct (negb (has_children n) && negb (span_is_empty (node_span n))).
      - unfold tree_push_index in E1. destruct (storage_push _ _ _); [|discriminate]. injection E1 as <- <-.
        destruct prev, par; simpl; auto; destruct fi; auto.
      - injection E1 as <- <-. destruct prev, par; simpl; auto; destruct fi; auto. }
    rewrite Eo4. unfold tree_push. rewrite HS. cbn [storage_push option_map].
    assert (Er : forall ns (u : tree T), rooted (set_t_nodes ns u) = set_t_nodes ns (rooted u)).
    { intros ns u. unfold rooted. destruct par; auto. simpl. destruct (t_first u); auto. }
    rewrite Er. do 3 f_equal.
    assert (SS : forall x y (u : tree T), set_t_nodes x (set_t_nodes y u) = set_t_nodes x u) by reflexivity.
    assert (TN : forall x (u : tree T), t_nodes (set_t_nodes x u) = x) by reflexivity.
    destruct par as [q|] eqn:Epar, prev as [p|] eqn:Eprev; unfold tree_upd; rewrite ?TN, ?SS;
      (match goal with |- set_t_nodes ?x ?u = set_t_nodes ?y ?v => apply (f_equal (fun z => set_t_nodes z u) (x := x) (y := y)) end).
    + rewrite (upd_comm (t_nodes o ++ [new])) by exact Fc.
      rewrite (upd_app1 (t_nodes o)) by auto. rewrite (upd_app1 (upd (t_nodes o) p _)); auto. rewrite length_upd. auto.
    + rewrite upd_app1; auto.
    + rewrite upd_app1; auto.
    + reflexivity.
  - unfold insert. destruct HF as [HS _]. simpl. unfold tree_len. rewrite N1, HL, pointer_new_spec. unfold full in Hf. rewrite Hf.
    cbn [b_sibling bld b_parent]. rewrite W1, W2. fold par prev. fold sp.
    change (node_value n) with (l_data (snd n)) in *. unfold tree_push. simpl. rewrite HS. cbn [storage_push option_map]. rewrite N1.
    f_equal. unfold set_b_tree, set_b_sibling, bld. simpl. rewrite W1, W3. fold par.
    f_equal. unfold rooted. destruct o1 as [nd1 sp1 ix1 fi1 la1].
    destruct par as [q|] eqn:Epar, prev as [p|] eqn:Eprev; simpl; auto; destruct fi1; auto.
Qed.

Lemma BR_holds b a : BR b a -> holds (b_tree b) a.
Proof. intros [H1 H2 H3 H4 H5 H6 H7 H8 H9 H10]. constructor; auto. Qed.
Lemma holds_move c o a : holds o a -> holds o (move c a).
Proof. intros [H1 H2 H3 H4 H5 H6 H7 H8 H9 H10]. constructor; auto. Qed.

Lemma holds_leaf o a d sp o' b' id : holds o a -> full F a = false ->
  insert F d sp (bld o a) = (set_b_tree o' b', Ok id) -> holds o' (a_leaf d sp a).
Proof.
  intros H Hf E. destruct (leaf_spec F HF (bld o a) a d sp H Hf) as (t & E' & HB). rewrite E in E'.
  assert (t = o') as ->. { apply (f_equal (fun p => b_tree (fst p))) in E'. simpl in E'. auto. }
  apply BR_holds in HB. exact HB.
Qed.

Definition opened (d : T) (a : doc T) : doc T :=
  Doc [] (Frame (a_n a) d (span_point (a_cursor a)) (a_cur a) :: touch (a_cursor a) (a_open a)) (S (a_n a))
      (a_cursor a) (a_span a) (a_index a) (a_marks a).
Lemma holds_opened o a d o' b' id : holds o a -> full F a = false ->
  insert F d (span_point (a_cursor a)) (bld o a) = (set_b_tree o' b', Ok id) -> holds o' (opened d a).
Proof.
  intros H Hf E. destruct (open_spec F HF (bld o a) a d (span_point (a_cursor a)) H) as (t & E' & HB & _). rewrite E in E'.
  unfold a_open_with in *. rewrite Hf in *. simpl in E'. injection E' as <- _. apply BR_holds in HB. exact HB.
Qed.

(** Leaving a node: unlike [close], nothing is widened and the cursor stays. *)
Definition shut (a : doc T) : doc T :=
  match a_open a with
  | [] => a
  | f :: fs => Doc (f_left f ++ [Nd (f_id f) KOpen (f_data f) (f_span f) (a_cur a)]) fs (a_n a)
                   (a_cursor a) (a_span a) (a_index a) (a_marks a)
  end.
Lemma holds_shut o a : holds o a -> holds o (shut a).
Proof.
  intros H. pose proof H as [H1 H2 H3 H4 H5 H6 H7 H8 H9 H10]. unfold shut. destruct (a_open a) as [|f fs] eqn:Eo; auto.
  simpl in H1, H2. unfold flat_doc in H1. rewrite Eo in H1. simpl in H1.
  apply rep_app in H1 as [Hc Hfr]. apply rep_cons in Hfr as [Hh Hfr]. apply rep_app in Hfr as [Hl Hfr].
  simpl in H9, H10.
  constructor; simpl; auto.
  - unfold flat_doc. cbn [a_open a_cur]. rewrite flat_list_app, last_of_snoc, hd_id_app. apply rep_app. split; auto.
    apply rep_app. split; auto. cbn [flat_list]. rewrite app_nil_r, flat_eq. apply rep_cons. split; auto.
  - rewrite <- H3. unfold doc_ids. rewrite Eo. cbn [a_cur a_open frames_ids]. rewrite ids_l_app. simpl. rewrite app_nil_r, <- app_assoc. simpl.
    fold (ids_l (a_cur a)). rewrite <- Permutation_middle. rewrite <- Permutation_middle. constructor.
    rewrite !app_assoc. apply Permutation_app_tail. apply Permutation_app_comm.
  - rewrite hd_id_app. exact H9.
  - rewrite last_of_snoc. exact H10.
Qed.

(** At the end the output stores the document. *)
Lemma holds_rep o a : holds o a -> a_open a = [] -> tree_rep o (a_cur a).
Proof.
  intros [H1 H2 H3 H4 H5 H6 H7 H8 H9 H10] Ho. simpl in *. rewrite Ho in *. constructor; auto.
  - unfold flat_doc in H1. rewrite Ho in H1. simpl in H1. rewrite app_nil_r in H1. auto.
  - rewrite H2. unfold doc_ids in H3. rewrite Ho in H3. simpl in H3. rewrite app_nil_r in H3. auto.
Qed.
End Out.

(** ** What a set of changes does *)
Lemma edited_mono T c top f n s (xs : list (rose T)) xs' n' s' up : edited c top f n s xs xs' n' s' up -> n <= n' /\ (s <= s')%N.
Proof. induction 1; intuition lia. Qed.
Lemma edited_size T c top f n s (xs : list (rose T)) xs' n' s' up : edited c top f n s xs xs' n' s' up ->
  n' = n + length (preorder_list xs').
Proof.
  unfold preorder_list. induction 1; cbn [flat_map preorder] in *; rewrite ?app_length in *; cbn [length] in *; rewrite ?app_length in *; lia.
Qed.
Lemma edited_up T c top f n s (xs : list (rose T)) xs' n' s' up : edited c top f n s xs xs' n' s' up ->
  up = true -> top = false /\ changed c n' = true.
Proof. induction 1; intuition (try discriminate; auto). Qed.

(** ** Running it *)
Definition touches {T} (xs : list (rose T)) (fs : list (frame T)) : list (frame T) :=
  match last_error xs with None => fs | Some y => touch (reach y) fs end.
Lemma touch_touch {T} e e' (fs : list (frame T)) : touch e (touch e' fs) = touch e fs.
Proof. destruct fs; auto. Qed.
Lemma last_error_cons {A} (x y : A) l : last_error (x :: y :: l) = last_error (y :: l).
Proof. reflexivity. Qed.
Lemma touches_cons {T} x xs (fs : list (frame T)) : touches xs (touch (reach x) fs) = touches (x :: xs) fs.
Proof.
  unfold touches. destruct xs as [|y xs]; [reflexivity|]. rewrite last_error_cons.
  destruct (last_error (y :: xs)) eqn:E; [apply touch_touch|].
  exfalso. revert y E. induction xs as [|z xs IH]; intros y E; [discriminate|]. rewrite last_error_cons in E. eauto.
Qed.
Lemma touch_ids {T} e (fs : list (frame T)) : map f_id (touch e fs) = map f_id fs.
Proof. destruct fs; auto. Qed.

(** What [modify] files: the childless nodes that are not empty, under their starts. *)
Definition stands {T} (x : rose T) : bool := negb (has_kids x) && negb (span_is_empty (r_span x)).
Definition filed {T} (xs : list (rose T)) : list (N * nat) := map (fun x => (s_start (r_span x), r_id x)) (filter stands (preorder_list xs)).
Lemma filed_app {T} (a b : list (rose T)) : filed (a ++ b) = filed a ++ filed b.
Proof. unfold filed, preorder_list. rewrite flat_map_app, filter_app, map_app. auto. Qed.
Lemma filed_leaf {T} n k (d : T) s e xs : filed (Nd n k d (Span s e) [] :: xs) = (if N.eqb e s then [] else [(s, n)]) ++ filed xs.
Proof. unfold filed, preorder_list. cbn [flat_map preorder app]. unfold stands at 1, span_is_empty. simpl. destruct (N.eqb e s); reflexivity. Qed.
Lemma filed_node {T} n k (d : T) s kids xs : filed (Nd n k d (Span s (last_reach s kids)) kids :: xs) = filed kids ++ filed xs.
Proof.
  unfold filed, preorder_list. cbn [flat_map preorder app]. destruct kids as [|y kids].
  - simpl. unfold stands at 1, span_is_empty. simpl. rewrite N.eqb_refl. auto.
  - cbn [filter]. replace (stands (Nd n k d (Span s (last_reach s (y :: kids))) (y :: kids))) with false by reflexivity. cbv iota.
    rewrite filter_app, map_app. auto.
Qed.

(** All that [modify] sees of the tree it reads. *)
Definition isnode {T} (t : tree T) (n : node T) (x : rose T) : Prop := tree_get t (r_id x) = Some n.
Definition leads {T} (t : tree T) (o : option (node T)) (xs : list (rose T)) : Prop :=
  match xs with [] => o = None | y :: _ => exists m, o = Some m /\ isnode t m y end.
Definition source {T} (t : tree T) (l : list (rose T)) : Prop :=
  leads t (tree_first t) l /\
  forall p s1 x s2 n, In (p, s1 ++ x :: s2) (sibling_lists l) -> isnode t n x ->
    node_value n = r_data x /\ node_span n = r_span x /\ has_children n = has_kids x /\
    leads t (node_next (t_nodes t) n) s2 /\ leads t (node_first (t_nodes t) n) (r_kids x).

Lemma answers_leads T (t : tree T) o xs : answers (node_opt (t_nodes t) o) (hd_error xs) -> leads t (node_opt (t_nodes t) o) xs.
Proof.
  unfold answers, leads, isnode. destruct xs as [|y xs]; simpl; destruct (node_opt (t_nodes t) o) as [m|] eqn:E; try discriminate; auto.
  intros A. exists m. split; auto.
  simpl in A. assert (Ei : fst m = r_id y) by (unfold view, rview in A; congruence). rewrite <- Ei.
  destruct o as [i|]; [|discriminate]. unfold tree_get. simpl in E. unfold node_at in *.
  destruct (nth_error (t_nodes t) i) eqn:En; [|discriminate]. injection E as <-. simpl. rewrite En. auto.
Qed.
Lemma rep_source T (t : tree T) l : tree_rep t l -> source t l.
Proof.
  intros Hrep. split; [apply answers_leads, (nav_first t _ Hrep)|].
  intros p s1 x s2 n Hs E. destruct (nav_links t l Hrep _ _ _ _ _ Hs E) as (V & _ & _ & A & B).
  unfold view, rview in V. injection V as _ -> -> ->. repeat (split; [reflexivity|]). split; apply answers_leads; auto.
Qed.

Section Run.
Context {T : Type}.
Variable F : flavor.
Hypothesis HF : vec_flavor F.
Variable t : tree T.
Variable l : list (rose T).
Hypothesis Hsrc : source t l.
Variable M : N.
Hypothesis Hadd : forall x s, In x (preorder_list l) -> r_kids x = [] -> span_is_empty (r_span x) = false ->
  ix_checked_add_len F s (span_len F (r_span x)) = if (s + width (r_span x) <=? M)%N then Some (s + width (r_span x))%N else None.
Let nodes := t_nodes t.

Local Notation isnode := (isnode t).

Lemma src_view p s1 x s2 n : In (p, s1 ++ x :: s2) (sibling_lists l) -> isnode n x ->
  node_value n = r_data x /\ node_span n = r_span x /\ has_children n = has_kids x.
Proof. intros Hs E. destruct (proj2 Hsrc _ _ _ _ _ Hs E) as (A & B & C & _). auto. Qed.
Lemma src_next p s1 x s2 n : In (p, s1 ++ x :: s2) (sibling_lists l) -> isnode n x ->
  match s2 with [] => node_next nodes n = None | y :: _ => exists m, node_next nodes n = Some m /\ isnode m y end.
Proof. intros Hs E. destruct (proj2 Hsrc _ _ _ _ _ Hs E) as (_ & _ & _ & A & _). exact A. Qed.
Lemma src_first p s1 x s2 n : In (p, s1 ++ x :: s2) (sibling_lists l) -> isnode n x ->
  match r_kids x with [] => node_first nodes n = None | y :: _ => exists m, node_first nodes n = Some m /\ isnode m y end.
Proof. intros Hs E. destruct (proj2 Hsrc _ _ _ _ _ Hs E) as (_ & _ & _ & _ & A). exact A. Qed.

(** Where the source stands: the nodes above, with their later siblings. *)
Definition top (st : list (rose T * list (rose T))) : option (rose T) := option_map fst (hd_error st).
Inductive upok : list (rose T * list (rose T)) -> Prop :=
| up_nil : upok []
| up_cons x later st s1 : upok st -> In (top st, s1 ++ x :: later) (sibling_lists l) -> upok ((x, later) :: st).

Variable c : changeset.

(** lines 206-265 and the rest of the loop. *)
Definition pass (fuel : nat) (r : refactor T) (o : tree T) (cur : N) (n : node T) (first : bool) :=
  let id := tree_len o in
  match emit F r o cur id n first with
  | ((r, o, cur), Ok _) => let '(r, current) := refactor_step nodes r n id in
                           modify_loop fuel F c nodes r o cur current
  | (_, Err e) => Err e
  | (_, Diverge) => Diverge
  end.
Definition enter (force : bool) (fuel : nat) r o cur n first :=
  if force then pass (pred fuel) r o cur n first else modify_loop fuel F c nodes r o cur (Some (n, first)).
Definition continue (fuel : nat) (o : tree T) (cur : N) (rc : refactor T * option (node T * bool)) :=
  modify_loop fuel F c nodes (fst rc) o cur (snd rc).

Record state (st : list (rose T * list (rose T))) (P : list (node T * nat)) (prev : option nat) (first : bool) (o : tree T) (a : doc T) : Prop := {
  st_up : upok st;
  st_par : Forall2 (fun p x => isnode (fst p) (fst x)) P st;
  st_ids : map snd P = map f_id (a_open a);
  st_out : holds o a;
  st_prev : (if first then None else prev) = last_id (a_cur a) None;
  st_first : first = true -> prev = None;
}.

(** One node that is not skipped. *)
Lemma pass_step st P prev first o a n x s1 s2 : state st P prev first o a ->
  In (top st, s1 ++ x :: s2) (sibling_lists l) -> isnode n x -> full F a = false ->
  (match r_kids x with [] => a_cursor a + width (r_span x) <= M | _ => True end)%N ->
  exists o' a',
    (forall fuel, pass fuel (Refactor P prev) o (a_cursor a) n first =
       continue fuel o' (a_cursor a') (refactor_step nodes (Refactor P None) n (a_n a))) /\
    holds o' a' /\ a_n a' = S (a_n a) /\ a_span a' = a_span a /\
    (fl_indexes F = SVec -> a_index a' = a_index a ++ if stands x then [(a_cursor a, a_n a)] else []) /\
    match r_kids x with
    | [] => a_cursor a' = (a_cursor a + width (r_span x))%N /\
            a_cur a' = a_cur a ++ [Nd (a_n a) KLeaf (r_data x) (Span (a_cursor a) (a_cursor a + width (r_span x))%N) []] /\
            a_open a' = touch (a_cursor a + width (r_span x)) (a_open a)
    | _ => a_cursor a' = a_cursor a /\ a_cur a' = [] /\
            a_open a' = Frame (a_n a) (r_data x) (span_point (a_cursor a)) (a_cur a) :: touch (a_cursor a) (a_open a)
    end.
Proof.
  intros H Hs Hn Hf HM. destruct (src_view _ _ _ _ _ Hs Hn) as (Vd & Vs & Vk). pose proof (st_out _ _ _ _ _ _ H) as Ho.
  assert (Hx : In x (preorder_list l)) by (eapply sibling_list_in; [exact Hs|apply in_elt]).
  assert (Hl : tree_len o = a_n a) by apply (br_len _ _ Ho).
  assert (Hpar : match P with [] => None | (_, p) :: _ => Some p end = level (a_open a)).
  { pose proof (st_ids _ _ _ _ _ _ H) as Hi. destruct P as [|[m p] P], (a_open a) as [|f fs]; simpl in *; try discriminate; auto. congruence. }
  set (c' := (a_cursor a + width (r_span x))%N).
  destruct (emit_insert F HF (Refactor P prev) o a n first c' (a_n a) Ho Hf eq_refl Hpar (st_prev _ _ _ _ _ _ H)) as (o1 & o' & H1 & E & I).
  { rewrite Vk, Vs. intros Hb. apply andb_true_iff in Hb as [Hb1 Hb2]. apply negb_true_iff in Hb1, Hb2.
    assert (r_kids x = []) by (unfold has_kids in Hb1; destruct (r_kids x); auto; discriminate).
    rewrite Hadd; auto. rewrite H0 in HM. destruct (N.leb_spec (a_cursor a + width (r_span x)) M); auto; lia. }
  assert (Epr : (if first then prev else None) = None) by (destruct first; auto; apply (st_first _ _ _ _ _ _ H); auto).
  cbn [r_parents r_prev] in E. rewrite Epr in E. cbn [r_prev] in *.
  assert (Ew : full F (with_index F n a) = false /\ a_cursor (with_index F n a) = a_cursor a /\ a_cur (with_index F n a) = a_cur a /\
     a_open (with_index F n a) = a_open a /\ a_n (with_index F n a) = a_n a /\ a_span (with_index F n a) = a_span a).
  { unfold with_index. destruct (negb _ && negb _); auto 10. }
  destruct Ew as (W1 & W2 & W3 & W4 & W5 & W6). rewrite Vd in I.
  assert (W7 : fl_indexes F = SVec -> a_index (with_index F n a) = a_index a ++ if stands x then [(a_cursor a, a_n a)] else []).
  { intros HI. unfold with_index, stands. rewrite Vk, Vs. destruct (negb (has_kids x) && negb (span_is_empty (r_span x))); [simpl; rewrite HI; auto|rewrite app_nil_r; auto]. }
  destruct (r_kids x) as [|y kids] eqn:Ek.
  - exists o', (move c' (a_leaf (r_data x) (Span (a_cursor a) c') (with_index F n a))).
    assert (Hc' : (if negb (has_children n) && negb (span_is_empty (node_span n)) then c' else a_cursor a) = c' /\
                  emitted n (a_cursor a) c' = Span (a_cursor a) c').
    { unfold emitted. rewrite Vk, Vs. unfold has_kids. rewrite Ek. simpl. destruct (span_is_empty (r_span x)) eqn:Ee; simpl; auto.
      assert (c' = a_cursor a) as ->; auto. unfold c', width. unfold span_is_empty in Ee. apply N.eqb_eq in Ee. lia. }
    destruct Hc' as [C1 C2]. rewrite C1 in E. rewrite C2 in I.
    assert (Hh : holds o' (move c' (a_leaf (r_data x) (Span (a_cursor a) c') (with_index F n a)))).
    { apply holds_move. eapply holds_leaf; eauto. }
    split; [|split; [exact Hh|]].
    + intros fuel. unfold pass. rewrite Hl, E.
      unfold continue. simpl a_cursor. destruct (refactor_step nodes (Refactor P None) n (a_n a)); auto.
    + simpl. rewrite W3, W4, W5, W6. auto 10.
  - exists o', (opened (r_data x) (with_index F n a)).
    assert (Hc' : (if negb (has_children n) && negb (span_is_empty (node_span n)) then c' else a_cursor a) = a_cursor a /\
                  emitted n (a_cursor a) c' = span_point (a_cursor a)).
    { unfold emitted. rewrite Vk. unfold has_kids. rewrite Ek. auto. }
    destruct Hc' as [C1 C2]. rewrite C1 in E. rewrite C2, <- W2 in I.
    assert (Hh : holds o' (opened (r_data x) (with_index F n a))) by (eapply holds_opened; eauto).
    split; [|split; [exact Hh|]].
    + intros fuel. unfold pass. rewrite Hl, E.
      unfold continue. simpl a_cursor. rewrite W2. destruct (refactor_step nodes (Refactor P None) n (a_n a)); auto.
    + simpl. rewrite W2, W3, W4, W5, W6. auto 10.
Qed.

(** A leaf that does not fit. *)
Lemma pass_fails st P prev first o a n x s1 s2 : state st P prev first o a ->
  In (top st, s1 ++ x :: s2) (sibling_lists l) -> isnode n x -> r_kids x = [] ->
  (a_cursor a <= M)%N -> (M < a_cursor a + width (r_span x))%N ->
  forall fuel, pass fuel (Refactor P prev) o (a_cursor a) n first = Err Overflow.
Proof.
  intros H Hs Hn Hk Hc HM fuel. destruct (src_view _ _ _ _ _ Hs Hn) as (Vd & Vs & Vk).
  assert (Hx : In x (preorder_list l)) by (eapply sibling_list_in; [exact Hs|apply in_elt]).
  assert (He : span_is_empty (r_span x) = false).
  { unfold span_is_empty. apply N.eqb_neq. unfold width in HM. intros E. lia. }
  unfold pass, emit. rewrite Vk, Vs. unfold has_kids. rewrite Hk, He. simpl negb. cbv beta iota.
  destruct first.
  - destruct HF as [_ HI]. unfold tree_push_index. simpl andb. cbv iota.
    destruct HI as [HI|HI]; rewrite HI; cbn [storage_push option_map]; rewrite Hadd by auto;
      destruct (N.leb_spec (a_cursor a + width (r_span x)) M); auto; lia.
  - destruct HF as [_ HI]. unfold tree_push_index. simpl andb. cbv iota.
    destruct HI as [HI|HI]; rewrite HI; cbn [storage_push option_map]; rewrite Hadd by auto;
      destruct (N.leb_spec (a_cursor a + width (r_span x)) M); auto; lia.
Qed.

Hypothesis Hids : forall m, changed c m = true -> (N.of_nat m < int_max F (fl_width F))%N.

Lemma loop_head force fuel r o cur n first : (N.of_nat (tree_len o) < int_max F (fl_width F))%N ->
  force = true \/ changed c (tree_len o) = false ->
  enter force (S fuel) r o cur n first = pass fuel r o cur n first.
Proof.
  intros Hw Hc. unfold enter. destruct force; [reflexivity|]. destruct Hc as [Hc|Hc]; [discriminate|].
  simpl. rewrite pointer_new_spec. destruct (N.leb_spec (int_max F (fl_width F)) (N.of_nat (tree_len o))); [lia|].
  rewrite Hc. reflexivity.
Qed.
Lemma loop_full fuel r o cur n first : (int_max F (fl_width F) <= N.of_nat (tree_len o))%N ->
  enter false (S fuel) r o cur n first = Err Overflow.
Proof.
  intros Hw. unfold enter. simpl. rewrite pointer_new_spec. destruct (N.leb_spec (int_max F (fl_width F)) (N.of_nat (tree_len o))); [auto|lia].
Qed.

Definition bound (n : nat) (s : N) : Prop := (N.of_nat n <= int_max F (fl_width F))%N /\ (s <= M)%N.

(** What is left to do: the rest of the loop, or the parent once more. *)
Definition left_over (up : bool) (fuel : nat) (P : list (node T * nat)) prev (o : tree T) (s : N) : result (tree T * N) :=
  if up then
    match P with
    | [] => Diverge
    | (m, pid) :: P => enter true (S fuel) (Refactor P (Some pid)) o s m false
    end
  else continue (S fuel) o s (step_pop nodes P prev).

Lemma forest : forall b force n s xs xs' n' s' up, edited c b force n s xs xs' n' s' up ->
  forall x0 rest, xs = x0 :: rest -> forall st s1 P prev first o a n0,
  b = (match st with [] => true | _ => false end) ->
  state st P prev first o a -> In (top st, s1 ++ xs) (sibling_lists l) ->
  a_n a = n -> a_cursor a = s -> isnode n0 x0 ->
  bound n s -> (force = true -> (N.of_nat n < int_max F (fl_width F))%N) ->
  exists k, (force = true -> 1 <= k) /\ k <= n' - n + (if b then 1 else 0) /\
  (bound n' s' /\ (exists prev' o' a',
    (forall fuel, enter force (k + S fuel) (Refactor P prev) o s n0 first = left_over up fuel P prev' o' s') /\
    holds o' a' /\ a_cur a' = a_cur a ++ xs' /\ a_open a' = touches xs' (a_open a) /\ a_n a' = n' /\ a_cursor a' = s' /\ a_span a' = a_span a /\
    (fl_indexes F = SVec -> forward_leaves l -> a_index a' = a_index a ++ filed xs')) \/
   ~ bound n' s' /\ forall fuel, enter force (k + S fuel) (Refactor P prev) o s n0 first = Err Overflow).
Proof.
  induction 1 as [tp force n s|tp force n s i k d sp xs xs' n2 s2 up Hck H IH|tp force n s i k d sp y kids kids' n1 s1 xs xs' n2 s2 up Hck HK IHK H IH
    |tp force n s i k d sp y kids kids' n1 s1 xs xs' n2 s2 up Hck HK IHK H IH|tp n s x y xs out n2 s2 up Hck H IH|n s x Hck|n s x Hck];
    intros x0 rest Exs st sl P prev first o a n0 Htop Hst Hs En Ec Hn Hb Hfo; [discriminate|..]; injection Exs as <- <-; subst n s;
    assert (Hlen : tree_len o = a_n a) by apply (br_len _ _ (st_out _ _ _ _ _ _ Hst)).
  - destruct (edited_mono _ _ _ _ _ _ _ _ _ _ _ H) as [M1 M2].
    destruct (N.leb_spec (int_max F (fl_width F)) (N.of_nat (a_n a))) as [Hfull|Hfull].
    { exists 0. destruct force; [specialize (Hfo eq_refl); lia|]. split; [discriminate|]. split; [lia|]. right. split.
      - unfold bound. lia.
      - intros fuel. apply loop_full. rewrite Hlen. auto. }
    assert (Hf : full F a = false) by (unfold full; apply N.leb_gt; auto).
    destruct (N.leb_spec (a_cursor a + width sp) M) as [HM|HM].
    2:{ exists 1. split; [auto|]. split; [lia|]. right. split; [unfold bound; lia|]. intros fuel.
      cbn [plus]. rewrite loop_head; [|rewrite Hlen; auto|rewrite Hlen; auto].
      eapply pass_fails; eauto. apply Hb. }
    destruct (pass_step st P prev first o a n0 _ sl xs Hst Hs Hn Hf) as (o1 & a1 & E1 & H1 & N1 & S1 & I1 & C1 & K1 & O1).
    { simpl. lia. }
    cbn [r_kids r_span r_data] in *.
    pose proof (src_first _ _ _ _ _ Hs Hn) as Ef. cbn [r_kids] in Ef.
    pose proof (src_next _ _ _ _ _ Hs Hn) as Enx.
    assert (J : fl_indexes F = SVec -> forward_leaves l -> forall zs,
       a_index a1 ++ filed zs = a_index a ++ filed (Nd (a_n a) KLeaf d (Span (a_cursor a) (a_cursor a + width sp)) [] :: zs)).
    { intros HI HL zs. rewrite (I1 HI), filed_leaf, <- app_assoc. f_equal. f_equal. unfold stands, span_is_empty. cbn [has_kids r_kids r_span negb andb].
      assert (Hx : In (Nd i k d sp []) (preorder_list l)) by (eapply sibling_list_in; [exact Hs|apply in_elt]).
      specialize (HL _ Hx eq_refl). cbn [r_span] in HL. unfold width.
      destruct (N.eqb_spec (s_end sp) (s_start sp)), (N.eqb_spec (a_cursor a + (s_end sp - s_start sp)) (a_cursor a)); auto; lia. }
    destruct xs as [|y ys].
    + inversion H; subst. exists 1. split; [auto|]. split; [lia|]. left. split; [unfold bound; lia|]. exists None, o1, a1. split.
      { intros fuel. cbn [plus]. rewrite loop_head; [|rewrite Hlen; auto|rewrite Hlen; auto]. rewrite E1. unfold refactor_step. rewrite Ef, Enx. rewrite C1. reflexivity. }
      split; [exact H1|]. repeat (split; [auto; fail|]). intros HI HL. rewrite <- (J HI HL []). unfold filed. simpl. rewrite app_nil_r. auto.
    + destruct Enx as (m & Em & Hm).
      destruct (IH y ys eq_refl st (sl ++ [Nd i k d sp []]) P (Some (a_n a)) false o1 a1 m) as (k2 & _ & Hk & R);
        auto; try (rewrite <- app_assoc; auto; fail).
      { constructor; auto; try apply Hst.
        - rewrite O1, touch_ids. apply Hst.
        - rewrite K1, last_id_app. reflexivity.
        - discriminate. }
      { unfold bound. lia. }
      { discriminate. }
      assert (Eq : forall fuel, enter force (S k2 + S fuel) (Refactor P prev) o (a_cursor a) n0 first =
         enter false (k2 + S fuel) (Refactor P (Some (a_n a))) o1 (a_cursor a + width sp) m false).
      { intros fuel. cbn [plus]. rewrite loop_head; [|rewrite Hlen; auto|rewrite Hlen; auto].
        rewrite E1. unfold refactor_step. rewrite Ef, Em. unfold continue at 1. cbn [fst snd r_parents]. rewrite C1. reflexivity. }
      exists (S k2). split; [lia|]. split; [lia|].
      destruct R as [(B & prev' & o' & a' & E' & Hh & K2 & O2 & N2 & C2 & S2 & I2)|(B & E')]; [left|right; split; auto; intros; rewrite Eq; auto].
      split; auto. exists prev', o', a'. split; [intros; rewrite Eq; auto|].
      split; auto. split; [rewrite K2, K1, <- app_assoc; auto|]. split; [|split; auto; split; auto; split; [congruence|intros HI HL; rewrite (I2 HI HL); apply J; auto]].
      rewrite O2, O1. rewrite <- touches_cons. reflexivity.
  - destruct (edited_mono _ _ _ _ _ _ _ _ _ _ _ H) as [M1 M2]. destruct (edited_mono _ _ _ _ _ _ _ _ _ _ _ HK) as [M3 M4].
    destruct (N.leb_spec (int_max F (fl_width F)) (N.of_nat (a_n a))) as [Hfull|Hfull].
    { exists 0. destruct force; [specialize (Hfo eq_refl); lia|]. split; [discriminate|]. split; [lia|]. right. split.
      - unfold bound. lia.
      - intros fuel. apply loop_full. rewrite Hlen. auto. }
    assert (Hf : full F a = false) by (unfold full; apply N.leb_gt; auto).
    destruct (pass_step st P prev first o a n0 _ sl xs Hst Hs Hn Hf) as (o1 & a1 & E1 & H1 & N1 & S1 & I1 & C1 & K1 & O1).
    { simpl. auto. }
    cbn [r_kids r_span r_data] in *.
    pose proof (src_first _ _ _ _ _ Hs Hn) as Ef. cbn [r_kids] in Ef. destruct Ef as (m & Ef & Hm).
    pose proof (src_next _ _ _ _ _ Hs Hn) as Enx.
    set (x := Nd i k d sp (y :: kids)) in *.
    assert (Hx : In x (preorder_list l)) by (eapply sibling_list_in; [exact Hs|apply in_elt]).
    destruct (IHK y kids eq_refl ((x, xs) :: st) [] ((n0, a_n a) :: P) None true o1 a1 m) as (k1 & _ & Hk1 & R1); auto.
    { constructor; auto.
      - econstructor; [apply Hst|exact Hs].
      - constructor; [exact Hn|apply Hst].
      - rewrite O1. cbn [map snd f_id]. rewrite touch_ids. f_equal. apply Hst.
      - rewrite K1. reflexivity. }
    { simpl. apply (kids_sibling_list l x Hx). }
    { unfold bound in *. lia. }
    { discriminate. }
    assert (Eq1 : forall fuel, enter force (S k1 + S fuel) (Refactor P prev) o (a_cursor a) n0 first =
         enter false (k1 + S fuel) (Refactor ((n0, a_n a) :: P) None) o1 (a_cursor a) m true).
    { intros fuel. cbn [plus]. rewrite loop_head; [|rewrite Hlen; auto|rewrite Hlen; auto].
      rewrite E1. unfold refactor_step. rewrite Ef. unfold continue at 1. cbn [fst snd r_parents r_prev]. rewrite C1. reflexivity. }
    destruct R1 as [(B1 & prev1 & o2 & a2 & E2 & H2 & K2 & O2 & N2 & C2 & S2 & I2)|(B1 & E2)].
    2:{ exists (S k1). split; [lia|]. split; [lia|]. right. split; [unfold bound in *; lia|]. intros. rewrite Eq1. auto. }
    set (x' := Nd (a_n a) KOpen d (Span (a_cursor a) (last_reach (a_cursor a) kids')) kids').
    assert (Hsh : a_cur (shut a2) = a_cur a ++ [x'] /\ a_open (shut a2) = touch (a_cursor a) (a_open a) /\ a_n (shut a2) = n1 /\ a_cursor (shut a2) = s1 /\ a_span (shut a2) = a_span a /\ a_index (shut a2) = a_index a2).
    { unfold shut. rewrite O2, O1, K2, K1. unfold touches, x', last_reach. destruct (last_error kids') as [z|] eqn:Ez; simpl; repeat split; auto; congruence. }
    destruct Hsh as (K3 & O3 & N3 & C3 & S3 & I3).
    assert (J : fl_indexes F = SVec -> forward_leaves l -> forall zs, a_index (shut a2) ++ filed zs = a_index a ++ filed (x' :: zs)).
    { intros HI HL zs. unfold x'. rewrite I3, (I2 HI HL), (I1 HI), filed_node. replace (stands x) with false by reflexivity. rewrite app_nil_r, <- app_assoc. auto. } pose proof (holds_shut o2 a2 H2) as H3.
    assert (Er : reach x' = a_cursor a).
    { unfold x', reach. cbn [r_kids r_span s_end s_start]. unfold last_reach. destruct kids'; reflexivity. }
    destruct xs as [|z zs].
    + inversion H; subst. exists (S k1). split; [lia|]. split; [lia|]. left. split; [auto|]. exists prev1, o2, (shut a2). split.
      { intros fuel. rewrite Eq1, E2. unfold left_over. cbn [step_pop]. rewrite Enx. reflexivity. }
      split; [exact H3|]. split; [exact K3|]. split; [|repeat (split; [auto; fail|]); intros HI HL; rewrite <- (J HI HL []); unfold filed; simpl; rewrite app_nil_r; auto]. rewrite O3. unfold touches. simpl. fold x'. rewrite Er. reflexivity.
    + destruct Enx as (m2 & Em & Hm2).
      destruct (IH z zs eq_refl st (sl ++ [x]) P (Some (a_n a)) false o2 (shut a2) m2) as (k2 & _ & Hk2 & R2);
        auto; try (rewrite <- app_assoc; auto; fail).
      { constructor; auto; try apply Hst.
        - rewrite O3, touch_ids. apply Hst.
        - rewrite K3, last_id_app. reflexivity.
        - discriminate. }
      { discriminate. }
      assert (Eq2 : forall fuel, enter force (S (k1 + k2) + S fuel) (Refactor P prev) o (a_cursor a) n0 first =
         enter false (k2 + S fuel) (Refactor P (Some (a_n a))) o2 s1 m2 false).
      { intros fuel. replace (S (k1 + k2) + S fuel) with (S k1 + S (k2 + fuel)) by lia. rewrite Eq1, E2. unfold left_over. cbn [step_pop]. rewrite Em.
        replace (k2 + S fuel) with (S (k2 + fuel)) by lia. reflexivity. }
      exists (S (k1 + k2)). split; [lia|]. split; [lia|].
      destruct R2 as [(B & prev' & o' & a' & E' & Hh & K4 & O4 & N4 & C4 & S4 & I4)|(B & E')]; [left|right; split; auto; intros; rewrite Eq2; auto].
      split; auto. exists prev', o', a'. split; [intros; rewrite Eq2; auto|].
      split; auto. split; [rewrite K4, K3, <- app_assoc; auto|]. split; [|split; auto; split; auto; split; [congruence|intros HI HL; rewrite (I4 HI HL); apply J; auto]].
      rewrite O4, O3. rewrite <- touches_cons. rewrite Er. reflexivity.
  - destruct (edited_mono _ _ _ _ _ _ _ _ _ _ _ H) as [M1 M2]. destruct (edited_mono _ _ _ _ _ _ _ _ _ _ _ HK) as [M3 M4].
    destruct (N.leb_spec (int_max F (fl_width F)) (N.of_nat (a_n a))) as [Hfull|Hfull].
    { exists 0. destruct force; [specialize (Hfo eq_refl); lia|]. split; [discriminate|]. split; [lia|]. right. split.
      - unfold bound. lia.
      - intros fuel. apply loop_full. rewrite Hlen. auto. }
    assert (Hf : full F a = false) by (unfold full; apply N.leb_gt; auto).
    destruct (pass_step st P prev first o a n0 _ sl xs Hst Hs Hn Hf) as (o1 & a1 & E1 & H1 & N1 & S1 & I1 & C1 & K1 & O1).
    { simpl. auto. }
    cbn [r_kids r_span r_data] in *.
    pose proof (src_first _ _ _ _ _ Hs Hn) as Ef. cbn [r_kids] in Ef. destruct Ef as (m & Ef & Hm).
    pose proof (src_next _ _ _ _ _ Hs Hn) as Enx.
    set (x := Nd i k d sp (y :: kids)) in *.
    assert (Hx : In x (preorder_list l)) by (eapply sibling_list_in; [exact Hs|apply in_elt]).
    destruct (IHK y kids eq_refl ((x, xs) :: st) [] ((n0, a_n a) :: P) None true o1 a1 m) as (k1 & _ & Hk1 & R1); auto.
    { constructor; auto.
      - econstructor; [apply Hst|exact Hs].
      - constructor; [exact Hn|apply Hst].
      - rewrite O1. cbn [map snd f_id]. rewrite touch_ids. f_equal. apply Hst.
      - rewrite K1. reflexivity. }
    { simpl. apply (kids_sibling_list l x Hx). }
    { unfold bound in *. lia. }
    { discriminate. }
    assert (Eq1 : forall fuel, enter force (S k1 + S fuel) (Refactor P prev) o (a_cursor a) n0 first =
         enter false (k1 + S fuel) (Refactor ((n0, a_n a) :: P) None) o1 (a_cursor a) m true).
    { intros fuel. cbn [plus]. rewrite loop_head; [|rewrite Hlen; auto|rewrite Hlen; auto].
      rewrite E1. unfold refactor_step. rewrite Ef. unfold continue at 1. cbn [fst snd r_parents r_prev]. rewrite C1. reflexivity. }
    destruct R1 as [(B1 & prev1 & o2 & a2 & E2 & H2 & K2 & O2 & N2 & C2 & S2 & I2)|(B1 & E2)].
    2:{ exists (S k1). split; [lia|]. split; [lia|]. right. split; [unfold bound in *; lia|]. intros. rewrite Eq1. auto. }
    set (x' := Nd (a_n a) KOpen d (Span (a_cursor a) (last_reach (a_cursor a) kids')) kids').
    assert (Hsh : a_cur (shut a2) = a_cur a ++ [x'] /\ a_open (shut a2) = touch (a_cursor a) (a_open a) /\ a_n (shut a2) = n1 /\ a_cursor (shut a2) = s1 /\ a_span (shut a2) = a_span a /\ a_index (shut a2) = a_index a2).
    { unfold shut. rewrite O2, O1, K2, K1. unfold touches, x', last_reach. destruct (last_error kids') as [z|] eqn:Ez; simpl; repeat split; auto; congruence. }
    destruct Hsh as (K3 & O3 & N3 & C3 & S3 & I3).
    assert (J : fl_indexes F = SVec -> forward_leaves l -> forall zs, a_index (shut a2) ++ filed zs = a_index a ++ filed (x' :: zs)).
    { intros HI HL zs. unfold x'. rewrite I3, (I2 HI HL), (I1 HI), filed_node. replace (stands x) with false by reflexivity. rewrite app_nil_r, <- app_assoc. auto. } pose proof (holds_shut o2 a2 H2) as H3.
    assert (Er : reach x' = a_cursor a).
    { unfold x', reach. cbn [r_kids r_span s_end s_start]. unfold last_reach. destruct kids'; reflexivity. }
    destruct (edited_up _ _ _ _ _ _ _ _ _ _ _ HK eq_refl) as [_ Hch].
    destruct (IH x xs eq_refl st sl P (Some (a_n a)) false o2 (shut a2) n0) as (k2 & Hk0 & Hk2 & R2); auto.
    { constructor; auto; try apply Hst.
      - rewrite O3, touch_ids. apply Hst.
      - rewrite K3, last_id_app. reflexivity.
      - discriminate. }
    assert (Eq2 : forall fuel, enter force (S (k1 + k2) + S fuel) (Refactor P prev) o (a_cursor a) n0 first =
         enter true (k2 + S fuel) (Refactor P (Some (a_n a))) o2 s1 n0 false).
    { intros fuel. replace (S (k1 + k2) + S fuel) with (S k1 + S (k2 + fuel)) by lia. rewrite Eq1, E2. unfold left_over.
      replace (k2 + S fuel) with (S (k2 + fuel)) by lia. reflexivity. }
    exists (S (k1 + k2)). split; [lia|]. split; [lia|].
    destruct R2 as [(B & prev' & o' & a' & E' & Hh & K4 & O4 & N4 & C4 & S4 & I4)|(B & E')]; [left|right; split; auto; intros; rewrite Eq2; auto].
    split; auto. exists prev', o', a'. split; [intros; rewrite Eq2; auto|].
    split; auto. split; [rewrite K4, K3, <- app_assoc; auto|]. split; [|split; auto; split; auto; split; [congruence|intros HI HL; rewrite (I4 HI HL); apply J; auto]].
    rewrite O4, O3. rewrite <- touches_cons. rewrite Er. reflexivity.
  - pose proof (src_next _ _ _ _ _ Hs Hn) as (m & Em & Hm).
    destruct (IH y xs eq_refl st (sl ++ [x]) P prev first o a m) as (k2 & Hk0 & Hk2 & R); auto.
    { rewrite <- app_assoc. auto. }
    specialize (Hk0 eq_refl). destruct k2 as [|k2]; [lia|].
    assert (Eq : forall fuel, enter false (S k2 + S fuel) (Refactor P prev) o (a_cursor a) n0 first = enter true (S k2 + S fuel) (Refactor P prev) o (a_cursor a) m first).
    { intros fuel. unfold enter. cbn [plus pred]. simpl. rewrite pointer_new_spec, Hlen. specialize (Hids _ Hck).
      destruct (N.leb_spec (int_max F (fl_width F)) (N.of_nat (a_n a))); [lia|]. rewrite Hck. unfold skip_subtree. rewrite Em.
      unfold pass. rewrite Hlen. reflexivity. }
    exists (S k2). split; [auto|]. split; [auto|].
    destruct R as [(B & prev' & o' & a' & E' & R)|(B & E')]; [left; split; auto; exists prev', o', a'; split; auto|right; split; auto]; intros; rewrite Eq; auto.
  - pose proof (src_next _ _ _ _ _ Hs Hn) as Enx.
    destruct st as [|? ?]; [|discriminate]. pose proof (st_par _ _ _ _ _ _ Hst) as HP. inversion HP; subst.
    exists 1. split; [auto|]. split; [lia|]. left. split; auto. exists prev, o, a. split.
    { intros fuel. unfold enter. simpl. rewrite pointer_new_spec, Hlen. specialize (Hids _ Hck).
      destruct (N.leb_spec (int_max F (fl_width F)) (N.of_nat (a_n a))); [lia|]. rewrite Hck. unfold skip_subtree. rewrite Enx. reflexivity. }
    split; [apply Hst|]. rewrite !app_nil_r. auto 10.
  - pose proof (src_next _ _ _ _ _ Hs Hn) as Enx.
    destruct st as [|[q later] st]; [discriminate|]. pose proof (st_par _ _ _ _ _ _ Hst) as HP. inversion HP as [|[m pid] ? P' ? Hm HP']; subst.
    exists 0. split; [discriminate|]. split; [lia|]. left. split; auto. exists prev, o, a. split.
    { intros fuel. unfold enter. simpl. rewrite pointer_new_spec, Hlen. specialize (Hids _ Hck).
      destruct (N.leb_spec (int_max F (fl_width F)) (N.of_nat (a_n a))); [lia|]. rewrite Hck. unfold skip_subtree. rewrite Enx. unfold pass. rewrite Hlen. reflexivity. }
    split; [apply Hst|]. rewrite !app_nil_r. auto 10.
Qed.
End Run.

(** ** There is always exactly one outcome *)
Lemma edited_grows T c top n s (x : rose T) xs xs' n' s' up : edited c top true n s (x :: xs) xs' n' s' up -> n < n'.
Proof.
  intros H. inversion H; subst; repeat match goal with A : edited _ _ _ _ _ _ _ _ _ _ |- _ => apply edited_mono in A end; lia.
Qed.

Lemma pre_len T i k d sp kids (xs : list (rose T)) :
  length (preorder_list (Nd i k d sp kids :: xs)) = S (length (preorder_list kids) + length (preorder_list xs)).
Proof. unfold preorder_list. cbn [flat_map preorder]. rewrite app_length. reflexivity. Qed.

Lemma edited_total T c (m : nat) : (forall i, changed c i = true -> i < m) ->
  forall w top forced n s (xs : list (rose T)), m - n <= w -> exists xs' n' s' up, edited c top forced n s xs xs' n' s' up.
Proof.
  intros Hm. induction w as [w IHw] using lt_wf_ind. intros top forced n s xs. remember (length (preorder_list xs)) as sz eqn:Esz.
  revert top forced n s xs Esz. induction sz as [sz IHs] using lt_wf_ind. intros top forced n s xs -> Hw.
  destruct xs as [|[i k d sp kids] xs]; [do 4 eexists; apply ed_nil|].
  destruct (orb forced (negb (changed c n))) eqn:Eb.
  - assert (Hk : forced = true \/ changed c n = false).
    { apply orb_true_iff in Eb as [->|Eb]; auto. apply negb_true_iff in Eb. auto. }
    assert (Hxs : forall n1 s1, n <= n1 -> exists xs' n' s' up, edited c top false n1 s1 xs xs' n' s' up).
    { intros n1 s1 H1. eapply (IHs (length (preorder_list xs))); eauto; [|lia]. rewrite pre_len. lia. }
    destruct kids as [|y kids].
    + destruct (Hxs (S n) (s + width sp)%N) as (xs' & n' & s' & up & H); [lia|]. do 4 eexists. eapply ed_leaf; eauto.
    + destruct (IHs (length (preorder_list (y :: kids))) ltac:(rewrite (pre_len T i k d sp); lia) false false (S n) s (y :: kids) eq_refl ltac:(lia))
        as (kids' & n1 & s1 & up1 & HK).
      pose proof (edited_mono _ _ _ _ _ _ _ _ _ _ _ HK) as [Hn1 _].
      destruct up1.
      * pose proof (proj2 (edited_up _ _ _ _ _ _ _ _ _ _ _ HK eq_refl)) as Hc1. specialize (Hm _ Hc1).
        destruct (IHw (m - n1) ltac:(lia) top true n1 s1 (Nd i k d sp (y :: kids) :: xs) ltac:(lia)) as (xs' & n' & s' & up & H).
        do 4 eexists. eapply ed_again; eauto.
      * destruct (Hxs n1 s1 ltac:(lia)) as (xs' & n' & s' & up & H). do 4 eexists. eapply ed_node; eauto.
  - apply orb_false_iff in Eb as [-> Eb]. apply negb_false_iff in Eb. destruct xs as [|y xs].
    + destruct top; do 4 eexists; [apply ed_last|apply ed_up]; auto.
    + destruct (IHs (length (preorder_list (y :: xs))) ltac:(rewrite (pre_len T i k d sp); lia) top true n s (y :: xs) eq_refl Hw) as (xs' & n' & s' & up & H).
      do 4 eexists. eapply ed_skip; eauto.
Qed.

Lemma edited_det T c top forced n s (xs : list (rose T)) xs1 n1 s1 u1 : edited c top forced n s xs xs1 n1 s1 u1 ->
  forall xs2 n2 s2 u2, edited c top forced n s xs xs2 n2 s2 u2 -> xs1 = xs2 /\ n1 = n2 /\ s1 = s2 /\ u1 = u2.
Proof.
  induction 1 as [tp force n s|tp force n s i k d sp xs xs' n2 s2 up Hck H IH|tp force n s i k d sp y kids kids' n1 s1 xs xs' n2 s2 up Hck HK IHK H IH
    |tp force n s i k d sp y kids kids' n1 s1 xs xs' n2 s2 up Hck HK IHK H IH|tp n s x y xs out n2 s2 up Hck H IH|n s x Hck|n s x Hck];
    intros ys m2 e2 u2 H2; inversion H2; subst;
    repeat match goal with A : false = true \/ changed _ _ = false |- _ => destruct A as [A|A]; [discriminate|] end;
    try congruence; try (intuition congruence).
  all: try (match goal with A : edited _ _ _ _ _ [] _ _ _ _ |- _ => inversion A; fail end).
  all: try (match goal with A : edited _ _ _ _ _ (_ :: _) _ _ _ _ |- _ => destruct (IHK _ _ _ _ A) as (? & ? & ? & ?); subst; try discriminate end).
  all: try (match goal with A : edited _ _ _ _ _ _ ?z _ _ _ |- _ :: _ = _ :: ?z /\ _ => destruct (IH _ _ _ _ A) as (? & ? & ? & ?); subst; auto end).
  all: match goal with A : edited _ _ _ _ _ _ ?z _ _ _ |- _ = ?z /\ _ => destruct (IH _ _ _ _ A) as (? & ? & ? & ?); subst; auto end.
Qed.

(** ** The whole run *)
Definition zero_spans {T} (F : flavor) (l : list (rose T)) : Prop :=
  fl_index F = IxEmpty -> forall x, In x (preorder_list l) -> r_span x = Span 0 0.

Lemma add_exact {T} F (l : list (rose T)) : zero_spans F l ->
  forall x s, In x (preorder_list l) -> r_kids x = [] -> span_is_empty (r_span x) = false ->
  ix_checked_add_len F s (span_len F (r_span x)) = if (s + width (r_span x) <=? ix_max F)%N then Some (s + width (r_span x))%N else None.
Proof.
  intros HZ x s Hx _ He. unfold width, ix_checked_add_len, span_len, ix_len_to, ix_max, zero_spans in *.
  destruct (fl_index F).
  - destruct (N.leb_spec (s_end (r_span x) - s_start (r_span x)) 4294967295); auto.
    destruct (N.leb_spec (s + (s_end (r_span x) - s_start (r_span x))) 4294967295); auto. lia.
  - auto.
  - rewrite (HZ eq_refl x Hx) in He. discriminate.
Qed.

Lemma in_pre_cons T i k d sp kids (xs : list (rose T)) x :
  In x (preorder_list (Nd i k d sp kids :: xs)) <-> x = Nd i k d sp kids \/ In x (preorder_list kids) \/ In x (preorder_list xs).
Proof.
  unfold preorder_list. cbn [flat_map preorder]. rewrite in_app_iff. simpl. intuition.
Qed.

Lemma edited_zero T c top f n s (xs : list (rose T)) xs' n' s' up : edited c top f n s xs xs' n' s' up ->
  s = 0%N -> (forall x, In x (preorder_list xs) -> r_span x = Span 0 0) ->
  s' = 0%N /\ forall x, In x (preorder_list xs') -> r_span x = Span 0 0.
Proof.
  assert (LR : forall ys : list (rose T), (forall x, In x (preorder_list ys) -> r_span x = Span 0 0) -> last_reach 0 ys = 0%N).
  { intros ys Hy. unfold last_reach. destruct (last_error ys) as [y|] eqn:E; auto.
    unfold reach. rewrite (Hy y) by (apply preorder_list_top; apply last_error_in; auto). destruct (r_kids y); reflexivity. }
  induction 1 as [tp force n s|tp force n s i k d sp xs xs' n2 s2 up Hck H IH|tp force n s i k d sp y kids kids' n1 s1 xs xs' n2 s2 up Hck HK IHK H IH
    |tp force n s i k d sp y kids kids' n1 s1 xs xs' n2 s2 up Hck HK IHK H IH|tp n s x y xs out n2 s2 up Hck H IH|n s x Hck|n s x Hck];
    intros -> Hz; try (split; [auto|intros ? []]; fail).
  - assert (E : sp = Span 0 0) by (apply (Hz (Nd i k d sp [])), in_pre_cons; auto). subst sp. change (0 + width (Span 0 0))%N with 0%N in *.
    destruct IH as [-> IH]; auto. { intros x Hx. apply Hz, in_pre_cons. auto. }
    split; [auto|]. intros x Hx. apply in_pre_cons in Hx as [->|[[]|Hx]]; auto.
  - destruct IHK as [-> IHK]; auto. { intros x Hx. apply Hz, in_pre_cons. auto. }
    destruct IH as [-> IH]; auto. { intros x Hx. apply Hz, in_pre_cons. auto. }
    split; [auto|]. intros x Hx. apply in_pre_cons in Hx as [->|[Hx|Hx]]; auto. simpl. rewrite LR; auto.
  - destruct IHK as [-> IHK]; auto. { intros x Hx. apply Hz, in_pre_cons. auto. }
    destruct IH as [-> IH]; auto.
    split; [auto|]. intros x Hx. apply in_pre_cons in Hx as [->|[Hx|Hx]]; auto. simpl. rewrite LR; auto.
  - apply IH; auto. intros z Hz'. apply Hz. unfold preorder_list in *. cbn [flat_map] in *. apply in_app_iff. auto.
Qed.

Lemma edited_kinds T c top f n s (xs : list (rose T)) xs' n' s' up : edited c top f n s xs xs' n' s' up ->
  forall x, In x (preorder_list xs') -> r_kind x <> KWrap.
Proof.
  induction 1; intros z Hz; try (destruct Hz; fail); auto;
    apply in_pre_cons in Hz as [->|[Hz|Hz]]; simpl; auto; try discriminate; destruct Hz.
Qed.

Theorem modify_source T (F : flavor) (t : tree T) l c : vec_flavor F -> source t l -> zero_spans F l ->
  (forall m, changed c m = true -> (N.of_nat m < int_max F (fl_width F))%N) ->
  forall l' n' s', edited c true false 0 0 l l' n' s' false ->
  (bound F (ix_max F) n' s' /\ (forall fuel, S n' <= fuel -> exists t', modify (S fuel) F c t = Ok t' /\ t_span t' = Span 0 s' /\ tree_rep t' l' /\
      (fl_indexes F = SVec -> forward_leaves l -> t_indexes t' = filed l')) \/
   ~ bound F (ix_max F) n' s' /\ (forall fuel, S n' <= fuel -> modify (S fuel) F c t = Err Overflow)).
Proof.
  intros HF Hsrc HZ Hids l' n' s' H. unfold modify.
  destruct l as [|x l].
  - inversion H; subst. left. split; [split; lia|]. intros fuel _. exists tree_new.
    assert (E : tree_first t = None) by exact (proj1 Hsrc). rewrite E. simpl. split; [auto|]. split; [auto|].
    split; [|auto]. constructor; auto. apply rep_nil.
  - destruct (proj1 Hsrc) as (m & Em & Hm). rewrite Em. cbn [option_map].
    assert (Hst : state t (x :: l) [] [] None false tree_new doc_new).
    { constructor; [constructor|constructor|reflexivity|apply holds_new|reflexivity|discriminate]. }
    destruct (forest F HF t (x :: l) Hsrc (ix_max F) (add_exact F (x :: l) HZ) c Hids _ _ _ _ _ _ _ _ _ H x l eq_refl
      [] [] [] None false tree_new doc_new m) as (k & _ & Hk & R); auto.
    { left. reflexivity. }
    { split; lia. }
    { discriminate. }
    destruct R as [(B & prev' & o & a & E & Hh & K & O & _ & C & Sp & Ix)|(B & E)]; [left|right]; split; auto; intros fuel Hf.
    + specialize (E (S fuel - k - 1)). replace (k + S (S fuel - k - 1)) with (S fuel) in E by lia.
      unfold enter in E. unfold ix_EMPTY. rewrite E. unfold left_over, continue. simpl. eexists. split; [reflexivity|].
      split.
      * simpl. pose proof (br_span _ _ Hh) as Es. simpl in Es. rewrite Es, Sp. reflexivity.
      * simpl in K, O. assert (Ho : a_open a = []) by (rewrite O; unfold touches; destruct (last_error l'); auto).
        pose proof (holds_rep o a Hh Ho) as [R1 R2 R3 R4]. rewrite K in *. split; [constructor; auto|].
        intros HI HL. simpl. pose proof (br_index _ _ Hh) as Ei. simpl in Ei. rewrite Ei. apply (Ix HI HL).
    + specialize (E (S fuel - k - 1)). replace (k + S (S fuel - k - 1)) with (S fuel) in E by lia.
      unfold enter in E. unfold ix_EMPTY. rewrite E. reflexivity.
Qed.

Theorem modify_exact T (F : flavor) (t : tree T) l c : vec_flavor F -> tree_rep t l -> zero_spans F l ->
  (forall m, changed c m = true -> (N.of_nat m < int_max F (fl_width F))%N) ->
  forall l' n' s', edited c true false 0 0 l l' n' s' false ->
  (bound F (ix_max F) n' s' /\ (forall fuel, S n' <= fuel -> exists t', modify (S fuel) F c t = Ok t' /\ t_span t' = Span 0 s' /\ tree_rep t' l' /\
      (fl_indexes F = SVec -> forward_leaves l -> t_indexes t' = filed l')) \/
   ~ bound F (ix_max F) n' s' /\ (forall fuel, S n' <= fuel -> modify (S fuel) F c t = Err Overflow)).
Proof. intros HF Hrep. apply modify_source; auto. apply rep_source; auto. Qed.

(** ** Seeing the result *)
Lemma rep_presents T F (t : tree T) l : tree_rep t l -> fits F t ->
  (forall x, In x (preorder_list l) -> r_kind x <> KWrap) -> presents F t l.
Proof.
  intros Hrep Hfit Hk.
  assert (Hset : forall p s, In (p, s) (sibling_lists l) -> fresh p s).
  { intros p s Hs. apply (settled_fresh t l Hrep p s Hs). unfold settled. destruct (last_error s) as [y|] eqn:E; auto.
    assert (Hy : r_kind y <> KWrap) by (apply Hk; eapply sibling_list_in; [exact Hs|apply last_error_in; auto]).
    destruct y as [? [] ? ? ?]; simpl in Hy; try congruence; destruct p as [[? [] ? ? ?]|]; auto. }
  assert (G : forall p s, In (p, s) (sibling_lists l) -> answers (node_opt (t_nodes t) (stored_last p s)) (last_error s)).
  { intros p s Hs. rewrite (Hset p s Hs). apply (answers_opt t l Hrep); [apply last_error_id|].
    intros y Hy. eapply sibling_list_in; [exact Hs|apply last_error_in; auto]. }
  split; [|split; [|split; [|split]]].
  - unfold tree_len. pose proof (Permutation_length (tr_perm _ _ Hrep)) as E. rewrite seq_length in E. rewrite <- E.
    unfold preorder_list. clear. induction l as [|x l IH]; auto. cbn [flat_map]. unfold ids_l in *. cbn [flat_map]. rewrite !app_length, IH. f_equal.
    clear. induction x as [i k d sp kids IH] using rose_ind'. simpl. f_equal. unfold ids_l. induction IH; simpl; auto. rewrite !app_length. lia.
  - destruct (tree_run F t l Hrep Hfit) as [d H].
    eapply wrun_depths with (fuel := loop_fuel (t_nodes t)) in H.
    + eapply enum_rel_map with (f := fun i => (fst i, view (snd i)))
        (g := fun i : Z * event * rose T => (fst (fst i), rview (snd i))) in H.
      * destruct H as (it & H1 & H2). exists it. split; auto. rewrite H2.
        fold (preorder_depth_list 0 l).
        rewrite <- (trace_list_preorder 0 l), map_map. auto.
      * intros [e n] [[dp e'] x] [H1 H2]. simpl in *. subst. f_equal. destruct H2; auto.
    + pose proof (ups_trace_list 0 l). pose proof (size_l_le_fuel t l Hrep). lia.
  - apply (nav_first t l Hrep).
  - unfold tree_last. rewrite (tr_last _ _ Hrep). apply (G None l). left; auto.
  - intros p s1 x s2 Hs.
    assert (Hx : In x (preorder_list l)) by (eapply sibling_list_in; [exact Hs|apply in_elt]).
    pose proof (node_links _ _ _ _ _ _ Hrep Hs) as E. eexists.
    assert (E2 : tree_get t (r_id x) = Some (r_id x, links_of (pid p) (last_id s1 None) (hd_id s2 None) x)).
    { unfold tree_get, node_at. rewrite E. auto. }
    split; [exact E2|]. destruct (nav_links t l Hrep _ _ _ _ _ Hs E2) as (A1 & A2 & A3 & A4 & A5). repeat (split; [assumption|]).
    apply (G (Some x) (r_kids x)). apply kids_sibling_list; auto.
Qed.
