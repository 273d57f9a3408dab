(** Property theorems: a tree through any history of [replace] and [modify] (C61). *)
From Coq Require Import Lia Permutation.
From Verif Require Import Base Pointer Index Tree Builder Hist Node Iter Query Edit Print Spec SpecMap SpecEq SpecEdit SpecModified SpecHistory Rep Marks Refine TreeRep
  Enum Walk WalkTree WalkGen WalkThms Nav Bounds Modify Replaced PropsTree PropsSpan PropsFused PropsSafe PropsReplace PropsEdit PropsQuery PropsWith PropsModified Demo.

Lemma rep_get T (t : tree T) l x : tree_rep t l -> In x (preorder_list l) -> exists n, tree_get t (r_id x) = Some n /\ view n = rview x.
Proof.
  intros R Hx. destruct (in_sibling_lists _ _ Hx) as (p & s1 & s2 & Hs). pose proof (node_links _ _ _ _ _ _ R Hs) as E.
  assert (E2 : tree_get t (r_id x) = Some (r_id x, links_of (pid p) (last_id s1 None) (hd_id s2 None) x)).
  { unfold tree_get, node_at. rewrite E. auto. }
  eexists. split; [exact E2|]. apply (nav_links t l R _ _ _ _ _ Hs E2).
Qed.

(** ** Any history *)

(** The document tells what any history of edits does to the tree and returns: the tree of the rewritten document and the values
    that were replaced, or an overflow if a modified tree does not fit.  Nothing else can happen, and the document's story has one ending. *)
Theorem C61_history : forall T F (es : list (edit T)) t l vs, made F t l -> Forall (edit_wf F) es ->
  exists r, rewritten F es l vs r /\ (forall r', rewritten F es l vs r' -> r' = r) /\
  exists enough, forall fuel, enough <= fuel ->
    match r with
    | Some (l', vs') => exists t', run_edits fuel F es t vs = Ok (t', vs') /\ made F t' l'
    | None => run_edits fuel F es t vs = Err Overflow
    end.
Proof.
  intros T F es. induction es as [|[i v|c] es IH]; intros t l vs Hm Hw.
  - exists (Some (l, vs)). split; [constructor|]. split; [intros r' H; inversion H; auto|]. exists 0. intros fuel _. exists t. auto.
  - inversion Hw as [|? ? _ Hw']; subst. destruct (made_facts T F t l Hm) as (_ & R & _).
    assert (D : forall x y, In x (preorder_list l) -> In y (preorder_list l) -> r_id x = r_id y -> x = y) by (intros; eapply preorder_id_inj; eauto).
    cbn [run_edits]. destruct (tree_get t i) as [n|] eqn:En.
    + assert (Hx : exists x, In x (preorder_list l) /\ r_id x = i).
      { apply (preorder_of_id t l i R). unfold tree_get, node_at in En. destruct (nth_error (t_nodes t) i) eqn:E; [|discriminate].
        apply nth_error_Some. congruence. }
      destruct Hx as (x & Hx & Ex). destruct (rep_get T t l x R Hx) as (n' & En' & V). rewrite Ex in En'. assert (n' = n) as -> by congruence.
      apply view_span in V as (_ & _ & _ & V).
      destruct (tree_replace t n v) as [t' old] eqn:E. assert (old = r_data x) as -> by (unfold tree_replace, node_replace in E; congruence).
      destruct (IH t' (map (set_value i v) l) (vs ++ [r_data x])) as (r & H1 & H2 & enough & H3); auto. { eapply made_replaced; eauto. }
      exists r. split; [eapply rw_replace; eauto|]. split.
      * intros r' H. inversion H; subst.
        -- match goal with A : In ?y (preorder_list l), B : r_id ?y = r_id x |- _ => pose proof (D y x A Hx B); subst end. auto.
        -- exfalso. match goal with A : forall y, In y (preorder_list l) -> r_id y <> _ |- _ => apply (A x Hx); auto end.
      * exists enough. intros fuel Hf. specialize (H3 fuel Hf). cbn [run_edits]. rewrite ?En, ?E. auto.
    + assert (Hno : forall x, In x (preorder_list l) -> r_id x <> i).
      { intros x Hx Ex. destruct (rep_get T t l x R Hx) as (n' & En' & _). congruence. }
      destruct (IH t l vs Hm Hw') as (r & H1 & H2 & enough & H3). exists r. split; [apply rw_no_node; auto|]. split.
      * intros r' H. inversion H; subst; auto. exfalso. eapply Hno; eauto.
      * exists enough. intros fuel Hf. specialize (H3 fuel Hf). auto.
  - inversion Hw as [|? ? Hp Hw']; subst. cbn [edit_wf] in Hp.
    destruct (C33_outcome T F t l c Hm Hp) as (l' & n & s & He & Hn & _ & G).
    destruct (N.leb_spec (N.of_nat n) (int_max F (fl_width F))) as [B1|B1]; [destruct (N.leb_spec s (ix_max F)) as [B2|B2]|].
    + destruct (proj1 (G (n + 2) (le_n _)) (conj B1 B2)) as (t' & E & Hm' & _).
      destruct (IH t' l' vs Hm' Hw') as (r & H1 & H2 & enough & H3). exists r. split; [eapply rw_modify; eauto|]. split.
      * intros r' H. inversion H; subst; match goal with A : edited c true false 0 0 l _ _ _ _ |- _ => destruct (edited_det _ _ _ _ _ _ _ _ _ _ _ He _ _ _ _ A) as (<- & <- & <- & _) end; auto.
        lia.
      * exists (max (n + 2) enough). intros fuel Hf. specialize (H3 fuel ltac:(lia)). cbn [run_edits].
        assert (E' : modify fuel F c t = Ok t').
        { replace fuel with (n + 2 + (fuel - (n + 2))) by lia. apply modify_more; auto. discriminate. }
        rewrite E'. auto.
    + exists None. split; [eapply rw_full; eauto|]. split.
      * intros r' H. inversion H; subst; auto. match goal with A : edited c true false 0 0 l _ _ _ _ |- _ => destruct (edited_det _ _ _ _ _ _ _ _ _ _ _ He _ _ _ _ A) as (<- & <- & <- & _) end. lia.
      * exists (n + 2). intros fuel Hf. cbn [run_edits]. rewrite (proj2 (G fuel Hf)); auto. lia.
    + exists None. split; [eapply rw_full; eauto|]. split.
      * intros r' H. inversion H; subst; auto. match goal with A : edited c true false 0 0 l _ _ _ _ |- _ => destruct (edited_det _ _ _ _ _ _ _ _ _ _ _ He _ _ _ _ A) as (<- & <- & <- & _) end. lia.
      * exists (n + 2). intros fuel Hf. cbn [run_edits]. rewrite (proj2 (G fuel Hf)); auto. lia.
Qed.
Print Assumptions C61_history.

(** A tree at any point of such a history is either the tree of a builder, with the very document [l], or a modified tree: so everything
    proved of finished trees or of modified trees (C58) holds of it. *)
Theorem C61_either : forall T F (t : tree T) l, made F t l -> fits F t -> (exists ops, finished F ops t l) \/ modified F t l.
Proof.
  induction 1 as [ops t l HF Hd Hb Hw|fuel c t l t' l' n s Hm _ Hp He E|t l i n v t' old Hm IH Hn E]; intros Hfit.
  - left. exists ops. split; auto.
  - right. eapply modified_now; eauto.
  - assert (Hfit0 : fits F t).
    { unfold tree_replace, node_replace in E. injection E as <- _. unfold fits, tree_len in *. cbn [set_t_nodes t_nodes] in Hfit. rewrite length_upd in Hfit. exact Hfit. }
    destruct (IH Hfit0) as [(ops & Hf)|M].
    + left. destruct (C29_as_if_built T F ops t l i n v t' old Hf Hn E) as (ops' & _ & Hf'). eauto.
    + right. eapply modified_replaced; eauto.
Qed.
Print Assumptions C61_either.

(** ** Replacing more than once *)
Lemma upd_upd {A} (l : list A) i f g : upd (upd l i f) i g = upd l i (fun x => g (f x)).
Proof. revert i; induction l as [|x l IH]; intros [|i]; simpl; auto. rewrite IH. auto. Qed.
Lemma upd_comm {A} (l : list A) i j f g : i <> j -> upd (upd l i f) j g = upd (upd l j g) i f.
Proof. revert i j; induction l as [|x l IH]; intros [|i] [|j] H; simpl; auto; try congruence. rewrite IH; auto. Qed.
Lemma upd_same_value {A} (l : list A) i f x : nth_error l i = Some x -> f x = x -> upd l i f = l.
Proof. revert i; induction l as [|y l IH]; intros [|i] H E; simpl in *; auto; try congruence. rewrite IH; auto. Qed.
Lemma get_fst T (t : tree T) i n : tree_get t i = Some n -> fst n = i /\ nth_error (t_nodes t) i = Some (snd n).
Proof. unfold tree_get, node_at. destruct (nth_error (t_nodes t) i); [|discriminate]. intros E. injection E as <-. auto. Qed.

(** The last value put into a node counts, and [replace] hands out the one put there before; putting the old value back undoes the change. *)
Theorem C61_last_write : forall T (t t1 t2 : tree T) i n n1 v v' old old',
  tree_get t i = Some n -> tree_replace t n v = (t1, old) ->
  tree_get t1 i = Some n1 -> tree_replace t1 n1 v' = (t2, old') ->
  old' = v /\ t2 = fst (tree_replace t n v') /\ (v' = old -> t2 = t).
Proof.
  intros T t t1 t2 i n n1 v v' old old' Hn E Hn1 E1. unfold tree_replace, node_replace in *. injection E as <- <-. injection E1 as <- <-.
  apply get_fst in Hn as [A Hn]. apply get_fst in Hn1 as [A1 Hn1]. rewrite A, A1 in *. cbn [t_nodes set_t_nodes fst] in *.
  rewrite nth_upd_same, Hn in Hn1. injection Hn1 as Hn1. split; [unfold node_value; rewrite <- Hn1; auto|].
  rewrite upd_upd. split; auto. intros ->. destruct t as [ns sp ix fi la]. unfold set_t_nodes. cbn [t_nodes t_span t_indexes t_first t_last] in *. f_equal.
  eapply upd_same_value; [exact Hn|]. unfold node_value. destruct (snd n); auto.
Qed.
Print Assumptions C61_last_write.

(** Replacing the values of two nodes: the order does not matter, and neither call sees the other's value. *)
Theorem C61_independent : forall T (t : tree T) i j n m v w t1 t2 u1 u2 o1 o2 p1 p2 n' m', i <> j ->
  tree_get t i = Some n -> tree_get t j = Some m ->
  tree_replace t n v = (t1, o1) -> tree_get t1 j = Some m' -> tree_replace t1 m' w = (t2, o2) ->
  tree_replace t m w = (u1, p1) -> tree_get u1 i = Some n' -> tree_replace u1 n' v = (u2, p2) ->
  t2 = u2 /\ o1 = p2 /\ o2 = p1.
Proof.
  intros T t i j n m v w t1 t2 u1 u2 o1 o2 p1 p2 n' m' Hij Hn Hm E1 Hm' E2 E3 Hn' E4. unfold tree_replace, node_replace in *.
  injection E1 as <- <-. injection E2 as <- <-. injection E3 as <- <-. injection E4 as <- <-.
  apply get_fst in Hn as [A1 Hn]. apply get_fst in Hm as [A2 Hm]. apply get_fst in Hn' as [A3 Hn']. apply get_fst in Hm' as [A4 Hm'].
  rewrite A1, A2, A3, A4 in *. cbn [t_nodes set_t_nodes] in *. rewrite nth_upd_other in Hn', Hm' by congruence.
  unfold set_t_nodes, node_value. cbn [t_nodes t_span t_indexes t_first t_last]. split; [f_equal; apply upd_comm; auto|].
  split; f_equal; congruence.
Qed.
Print Assumptions C61_independent.

(** ** modify does not look at values *)
Definition node_values {T U} (f : T -> U) (n : node T) : node U := (fst n, links_values f (snd n)).
Section Values.
Context {T U : Type}.
Variable f : T -> U.
Notation tv := (tree_values f).
Notation nv := (node_values f).
Definition rv (r : refactor T) : refactor U := Refactor (map (fun e => (nv (fst e), snd e)) (r_parents r)) (r_prev r).
Definition cv (c : option (node T * bool)) : option (node U * bool) := option_map (fun e => (nv (fst e), snd e)) c.
Definition map_ok {A B} (g : A -> B) (r : result A) : result B := match r with Ok a => Ok (g a) | Err e => Err e | Diverge => Diverge end.

Lemma upd_map {A B} (h : A -> B) l i g g' : (forall x, h (g x) = g' (h x)) -> map h (upd l i g) = upd (map h l) i g'.
Proof. intros H. revert i; induction l as [|x l IH]; intros [|i]; simpl; auto; f_equal; auto. Qed.
Lemma nv_at nodes i : node_at (map (links_values f) nodes) i = option_map nv (node_at nodes i).
Proof. unfold node_at. rewrite nth_error_map. destruct (nth_error nodes i); auto. Qed.
Lemma nv_opt nodes o : node_opt (map (links_values f) nodes) o = option_map nv (node_opt nodes o).
Proof. destruct o; simpl; auto. apply nv_at. Qed.
Lemma nv_next nodes n : node_next (map (links_values f) nodes) (nv n) = option_map nv (node_next nodes n).
Proof. apply nv_opt. Qed.
Lemma nv_first nodes n : node_first (map (links_values f) nodes) (nv n) = option_map nv (node_first nodes n).
Proof. apply nv_opt. Qed.
Lemma tv_upd i g g' t : (forall x, links_values f (g x) = g' (links_values f x)) -> tv (tree_upd i g t) = tree_upd i g' (tv t).
Proof. intros H. unfold tree_upd, tree_values, set_t_nodes. simpl. rewrite (upd_map _ _ _ g g'); auto. Qed.
Lemma storage_map {A B} (h : A -> B) st l x : storage_push st (map h l) (h x) = option_map (map h) (storage_push st l x).
Proof. destruct st; simpl; auto; rewrite ?map_length, ?map_app; auto. destruct (Nat.ltb _ _); simpl; rewrite ?map_app; auto. Qed.
Lemma tv_push F l t : tree_push F (links_values f l) (tv t) = option_map tv (tree_push F l t).
Proof. unfold tree_push. cbn [tree_values t_nodes]. rewrite storage_map. destruct (storage_push _ _ _); auto. Qed.
Lemma tv_push_index F k id t : tree_push_index F k id (tv t) = option_map tv (tree_push_index F k id t).
Proof. unfold tree_push_index. cbn [tree_values t_indexes]. destruct (storage_push _ _ _); auto. Qed.

Lemma skip_values nodes r n b : skip_subtree (map (links_values f) nodes) (rv r) (nv n) b =
  (rv (fst (skip_subtree nodes r n b)), cv (snd (skip_subtree nodes r n b))).
Proof. unfold skip_subtree. rewrite nv_next. destruct (node_next nodes n); auto. destruct r as [[|[p pid] ps] pv]; auto. Qed.
Lemma pop_values nodes ps : forall pv, step_pop (map (links_values f) nodes) (map (fun e => (nv (fst e), snd e)) ps) pv =
  (rv (fst (step_pop nodes ps pv)), cv (snd (step_pop nodes ps pv))).
Proof. induction ps as [|[p pid] ps IH]; intros pv; auto. cbn [map step_pop fst snd]. rewrite nv_next. destruct (node_next nodes p); auto. simpl. auto. Qed.
Lemma step_values nodes r n id : refactor_step (map (links_values f) nodes) (rv r) (nv n) id =
  (rv (fst (refactor_step nodes r n id)), cv (snd (refactor_step nodes r n id))).
Proof.
  unfold refactor_step. rewrite nv_first, nv_next. destruct (node_first nodes n); auto. destruct (node_next nodes n); auto. apply pop_values.
Qed.
Definition ev (x : refactor T * tree T * N * result unit) : refactor U * tree U * N * result unit :=
  let '(r, t, c, o) := x in (rv r, tv t, c, o).
Lemma emit_values F r t c id n b : emit F (rv r) (tv t) c id (nv n) b = ev (emit F r t c id n b).
Proof.
  unfold emit, has_children, node_span. cbn [node_values snd links_values l_first l_span].
  set (out := match r_parents r with [] => _ | _ => t end).
  set (out' := match r_parents (rv r) with [] => _ | _ => tv t end).
  assert (E1 : out' = tv out). { unfold out', out. destruct r as [[|[p pid] ps] pv]; auto. simpl. destruct (t_first t); auto. }
  rewrite E1. clearbody out. clear out' E1.
  set (p1 := if b then (r, None, out) else _). set (p1' := if b then (rv r, None, tv out) else _).
  assert (E2 : p1' = (rv (fst (fst p1)), snd (fst p1), tv (snd p1))).
  { unfold p1', p1. destruct b; auto. destruct r as [ps [pv|]]; simpl; auto. f_equal. symmetry. apply tv_upd. auto. }
  rewrite E2. destruct p1 as [[r1 prev] out1]. cbn [fst snd]. clear p1' E2 out.
  assert (E3 : match r_parents (rv r1) with [] => None | (_, q) :: _ => Some q end = match r_parents r1 with [] => None | (_, q) :: _ => Some q end).
  { destruct r1 as [[|[p pid] ps] pv]; auto. }
  rewrite E3. set (par := match r_parents r1 with [] => None | (_, q) :: _ => Some q end). clearbody par.
  rewrite tv_push_index.
  assert (E4 : forall out2 c2 sp,
    (let o := match par with Some p => tree_upd p (fun l => set_l_span (set_end (l_span (set_l_last (Some id) match l_first l with None => set_l_first (Some id) l | Some _ => l end)) (s_end sp))
        (set_l_last (Some id) match l_first l with None => set_l_first (Some id) l | Some _ => l end)) (tv out2) | None => tv out2 end in
     match tree_push F (Links (f (l_data (snd n))) sp par prev None None None) o with
     | None => ((rv r1, o, c2), Err FlavorError) | Some o => ((rv r1, o, c2), Ok tt) end) =
    ev (let o := match par with Some p => tree_upd p (fun l => set_l_span (set_end (l_span (set_l_last (Some id) match l_first l with None => set_l_first (Some id) l | Some _ => l end)) (s_end sp))
        (set_l_last (Some id) match l_first l with None => set_l_first (Some id) l | Some _ => l end)) out2 | None => out2 end in
     match tree_push F (Links (l_data (snd n)) sp par prev None None None) o with
     | None => ((r1, o, c2), Err FlavorError) | Some o => ((r1, o, c2), Ok tt) end)).
  { intros out2 c2 sp. cbv zeta. set (o := match par with Some _ => tree_upd _ _ out2 | None => out2 end).
    set (o' := match par with Some _ => tree_upd _ _ (tv out2) | None => tv out2 end).
    assert (E : o' = tv o). { unfold o', o. destruct par; auto. symmetry. apply tv_upd. intros [? ? ? ? ? [?|] ?]; auto. }
    rewrite E. change (Links (f (l_data (snd n))) sp par prev None None None) with (links_values f (Links (l_data (snd n)) sp par prev None None None)).
    rewrite tv_push. destruct (tree_push F _ o); auto. }
  destruct (negb match l_first (snd n) with Some _ => true | None => false end && negb (span_is_empty (l_span (snd n))))%bool.
  - destruct (tree_push_index F c id out1) as [out2|]; [|reflexivity]. cbn [option_map].
    destruct (ix_checked_add_len F c (span_len F (l_span (snd n)))) as [c2|]; [|reflexivity]. apply E4.
  - apply E4.
Qed.
Lemma loop_values F c nodes : forall fuel r t cur current,
  modify_loop fuel F c (map (links_values f) nodes) (rv r) (tv t) cur (cv current) =
  map_ok (fun x => (tv (fst x), snd x)) (modify_loop fuel F c nodes r t cur current).
Proof.
  induction fuel as [|fuel IH]; intros r t cur [[n b]|]; auto. cbn [modify_loop cv option_map fst snd].
  replace (tree_len (tv t)) with (tree_len t) by (unfold tree_len; simpl; rewrite map_length; auto).
  destruct (pointer_new F (tree_len t)) as [id|]; auto.
  assert (G : forall r n b,
    match emit F (rv r) (tv t) cur id (nv n) b with
    | ((r, o, cu), Ok _) => let '(r, current) := refactor_step (map (links_values f) nodes) r (nv n) id in modify_loop fuel F c (map (links_values f) nodes) r o cu current
    | (_, Err e) => Err e | (_, Diverge) => Diverge end =
    map_ok (fun x => (tv (fst x), snd x)) match emit F r t cur id n b with
    | ((r, o, cu), Ok _) => let '(r, current) := refactor_step nodes r n id in modify_loop fuel F c nodes r o cu current
    | (_, Err e) => Err e | (_, Diverge) => Diverge end).
  { clear r n b. intros r n b. rewrite emit_values. destruct (emit F r t cur id n b) as [[[r2 t2] c2] [u|e|]]; auto. cbn [ev].
    rewrite step_values. destruct (refactor_step nodes r2 n id) as [r3 c3]. cbn [fst snd]. apply IH. }
  destruct (changed c id); [|apply G]. rewrite skip_values. destruct (skip_subtree nodes r n b) as [r1 [[n1 b1]|]]; auto. cbn [fst snd cv option_map]. apply G.
Qed.
End Values.

(** Whatever the tree (in any state), whatever the changes: modifying the tree with all values passed through [f] gives what modifying the
    tree gives, with all values passed through [f]; or the same error.  So modify copies values, and neither makes, compares nor inspects them. *)
Theorem C61_values : forall T U (f : T -> U) fuel F c (t : tree T),
  modify fuel F c (tree_values f t) =
  match modify fuel F c t with Ok t' => Ok (tree_values f t') | Err e => Err e | Diverge => Diverge end.
Proof.
  intros T U f fuel F c t. unfold modify.
  assert (E : option_map (fun n => (n, false)) (tree_first (tree_values f t)) = cv f (option_map (fun n => (n, false)) (tree_first t))).
  { unfold tree_first. cbn [tree_values t_nodes t_first]. rewrite nv_opt. destruct (node_opt (t_nodes t) (t_first t)); auto. }
  rewrite E. pose proof (loop_values f F c (t_nodes t) fuel (Refactor [] None) tree_new ix_EMPTY (option_map (fun n => (n, false)) (tree_first t))) as L.
  cbn [tree_values t_nodes]. change (@rv T U f (Refactor [] None)) with (@Refactor U [] None) in L. change (tree_values f (@tree_new T)) with (@tree_new U) in L.
  rewrite L. destruct (modify_loop fuel F c (t_nodes t) _ _ _ _) as [[t2 c2]|e|]; reflexivity.
Qed.
Print Assumptions C61_values.

(** Every value in a modified tree was in the tree that was modified, at a node with children if and only if the new node was made from one. *)
Lemma edited_values T c top f n s (xs : list (rose T)) xs' n' s' up : edited c top f n s xs xs' n' s' up ->
  forall x', In x' (preorder_list xs') -> exists x, In x (preorder_list xs) /\ r_data x = r_data x'.
Proof.
  assert (K : forall (x : rose T) xs y, In y (preorder_list (r_kids x)) -> In y (preorder_list (x :: xs))).
  { intros [i k d sp kids] xs0 y Hy. unfold preorder_list in *. cbn [flat_map preorder r_kids] in *. apply in_app_iff. left. right. auto. }
  assert (R : forall (x : rose T) xs y, In y (preorder_list xs) -> In y (preorder_list (x :: xs))).
  { intros x xs0 y Hy. unfold preorder_list in *. cbn [flat_map]. apply in_app_iff. auto. }
  assert (Z : forall (x : rose T) xs, In x (preorder_list (x :: xs))).
  { intros [i k d sp kids] xs0. unfold preorder_list. cbn [flat_map preorder]. simpl. auto. }
  induction 1 as [tp force n s|tp force n s i k d sp xs xs' n2 s2 up Hck H IH|tp force n s i k d sp y kids kids' n1 s1 xs xs' n2 s2 up Hck HK IHK H IH
    |tp force n s i k d sp y kids kids' n1 s1 xs xs' n2 s2 up Hck HK IHK H IH|tp n s x y xs out n2 s2 up Hck H IH|n s x Hck|n s x Hck]; intros x' Hx'.
  - destruct Hx'.
  - unfold preorder_list in Hx'. cbn [flat_map preorder app] in Hx'. destruct Hx' as [<-|Hx']; [eexists; split; [apply Z|auto]|].
    destruct (IH x' Hx') as (x & Hx & E). exists x. auto.
  - unfold preorder_list in Hx'. cbn [flat_map preorder app] in Hx'. destruct Hx' as [<-|Hx']; [eexists; split; [apply Z|auto]|].
    apply in_app_iff in Hx' as [Hx'|Hx'].
    + destruct (IHK x' Hx') as (x & Hx & E). exists x. split; [|auto]. apply (K (Nd i k d sp (y :: kids))). auto.
    + destruct (IH x' Hx') as (x & Hx & E). exists x. auto.
  - unfold preorder_list in Hx'. cbn [flat_map preorder app] in Hx'. destruct Hx' as [<-|Hx']; [eexists; split; [apply Z|auto]|].
    apply in_app_iff in Hx' as [Hx'|Hx'].
    + destruct (IHK x' Hx') as (x & Hx & E). exists x. split; [|auto]. apply (K (Nd i k d sp (y :: kids))). auto.
    + destruct (IH x' Hx') as (x & Hx & E). exists x. auto.
  - destruct (IH x' Hx') as (z & Hz & E). exists z. auto.
  - destruct Hx'.
  - destruct Hx'.
Qed.
Theorem C61_no_new_values : forall T F (t : tree T) l c fuel t' j n', made F t l -> pointers F c -> modify fuel F c t = Ok t' ->
  tree_get t' j = Some n' -> exists i n, tree_get t i = Some n /\ node_value n = node_value n'.
Proof.
  intros T F t l c fuel t' j n' Hm Hp E Hn. destruct (C33_outcome T F t l c Hm Hp) as (l' & k & s & He & _).
  pose proof (made_modified F fuel c t l t' l' k s Hm Hp He E) as Hm'.
  destruct (made_facts T F t l Hm) as (_ & R & _). destruct (made_facts T F t' l' Hm') as (_ & R' & _).
  assert (Hx : exists x, In x (preorder_list l') /\ r_id x = j).
  { apply (preorder_of_id t' l' j R'). apply get_fst in Hn as [_ Hn]. apply nth_error_Some. congruence. }
  destruct Hx as (x' & Hx' & <-). destruct (rep_get T t' l' x' R' Hx') as (m & Em & V). assert (m = n') as -> by congruence.
  destruct (edited_values _ _ _ _ _ _ _ _ _ _ _ He x' Hx') as (x & Hx & Ex). destruct (rep_get T t l x R Hx) as (n & En & W).
  exists (r_id x), n. split; auto. apply view_span in V as (_ & _ & _ & V). apply view_span in W as (_ & _ & _ & W). congruence.
Qed.
Print Assumptions C61_no_new_values.

(** The hypotheses are met: p{a, b} c; replace b's value, remove a, and replace the value of what is now p's only child. *)
Definition edit_story : list (edit nat) := [EReplace 2 20; EModify [1]; EReplace 1 21; EReplace 7 0].
Example C61_inhabited : made flavor_default (tree_so_far flavor_default copy_ops) copy_doc /\ Forall (edit_wf flavor_default) edit_story /\
  exists t', run_edits 20 flavor_default edit_story (tree_so_far flavor_default copy_ops) [] = Ok (t', [2; 20]) /\
    made flavor_default t' [Nd 0 KOpen 0 (Span 0 3) [Nd 1 KLeaf 21 (Span 0 3) []]; Nd 2 KLeaf 3 (Span 3 4) []].
Proof.
  assert (M : made flavor_default (tree_so_far flavor_default copy_ops) copy_doc).
  { apply (made_finished flavor_default copy_ops). exact (proj1 (proj2 copy_plain)). repeat constructor; discriminate. }
  assert (P : pointers flavor_default [1]) by (intros i [<-|[]]; vm_compute; reflexivity).
  split; [exact M|]. split. { repeat constructor; exact P. }
  eexists. split; [vm_compute; reflexivity|].
  change [Nd 0 KOpen 0 (Span 0 3) [Nd 1 KLeaf 21 (Span 0 3) []]; Nd 2 KLeaf 3 (Span 3 4) []]
    with (map (set_value 1 21) [Nd 0 KOpen 0 (Span 0 3) [Nd 1 KLeaf 20 (Span 0 3) []]; Nd 2 KLeaf 3 (Span 3 4) []]).
  set (t0 := tree_so_far flavor_default copy_ops) in *.
  destruct (tree_get t0 2) as [n|] eqn:En; [|vm_compute in En; discriminate].
  destruct (tree_replace t0 n 20) as [t1 o1] eqn:E1. pose proof (made_replaced flavor_default _ _ _ _ _ _ _ M En E1) as M1.
  vm_compute in En. injection En as <-. vm_compute in E1. injection E1 as <- <-.
  match type of M1 with made _ ?a _ => destruct (modify 20 flavor_default [1] a) as [t2|e|] eqn:E2 end; [|exfalso; vm_compute in E2; discriminate|exfalso; vm_compute in E2; discriminate].
  assert (M2 : made flavor_default t2 [Nd 0 KOpen 0 (Span 0 3) [Nd 1 KLeaf 20 (Span 0 3) []]; Nd 2 KLeaf 3 (Span 3 4) []]).
  { eassert (He : edited [1] true false 0 0 (map (set_value 2 20) copy_doc) _ _ _ false).
    { cbn [map copy_doc set_value relabel Nat.eqb].
      eapply ed_node; [right; reflexivity|eapply ed_skip; [reflexivity|]; eapply ed_leaf; [left; reflexivity|apply ed_nil]|].
      eapply ed_leaf; [right; reflexivity|apply ed_nil]. }
    exact (made_modified flavor_default _ _ _ _ _ _ _ _ M1 P He E2). }
  vm_compute in E2. injection E2 as <-.
  eapply made_replaced; [exact M2|vm_compute; reflexivity|vm_compute; reflexivity].
Qed.
