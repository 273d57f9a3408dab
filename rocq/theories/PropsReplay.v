(** Property theorems: building a tree again from its walk (C63). *)
From Coq Require Import Lia.
From Verif Require Import Base Pointer Index Tree Builder Hist Node Iter Query Print Edit Spec SpecEq SpecSpan SpecMap SpecEdit SpecModified SpecProgram SpecMacro SpecReplay
  Rep Refine TreeRep DocInv Layout WalkGen WalkThms Modify Replaced PropsQuery Demo PropsTree PropsSpan PropsEq PropsMacro PropsProgram PropsEdit PropsModified PropsSafe PropsWith PropsCover.

Section Replay.
Context {T : Type}.
Variable F : flavor.

(** The same calls, as a structured program and as a literal. *)
Fixpoint prog_of (x : rose T) (k : prog T) : prog T :=
  match x with
  | Nd _ _ d sp [] => PTok d (span_len F sp) k
  | Nd _ _ d _ (y :: ys) => PNode d (prog_of y (fold_right prog_of PDone ys)) k
  end.
Fixpoint lit_of (x : rose T) : lit T :=
  match x with
  | Nd _ _ d sp [] => LTok d (span_len F sp)
  | Nd _ _ d _ (y :: ys) => LNode d (lit_of y :: map lit_of ys)
  end.

Definition rcall (i : event * rose T) : op T :=
  match fst i with
  | Up => OClose
  | _ => if has_kids (snd i) then OOpen (r_data (snd i)) else OToken (r_data (snd i)) (span_len F (r_span (snd i)))
  end.

Lemma rcall_of items (evs : list (event * rose T)) :
  map (fun i => (fst i, view (snd i))) items = map (fun i => (fst i, rview (snd i))) evs -> replay F items = map rcall evs.
Proof.
  revert evs. induction items as [|[e n] items IH]; intros [|[e' x] evs] H; try discriminate; auto.
  simpl in H. injection H as -> H1 H2 H3 H4 H5. simpl. f_equal; [|apply IH; auto].
  unfold replay_call, rcall. simpl. unfold view, rview in *. rewrite H2, H3, H4. auto.
Qed.

Lemma events_calls : forall x e, e <> Up -> map rcall (events e x) = expand (lit_of x).
Proof.
  fix IH 1. intros [i k d sp kids] e He. destruct kids as [|y ys].
  - simpl. unfold rcall. simpl. destruct e; auto. congruence.
  - simpl. rewrite !map_app. f_equal.
    + unfold rcall. simpl. destruct e; auto. congruence.
    + rewrite <- app_assoc. f_equal; [apply IH; discriminate|]. simpl. f_equal.
      induction ys as [|z zs IHz]; simpl; auto. rewrite map_app, IHz. f_equal. apply IH. discriminate.
Qed.
Lemma events_list_calls l : map rcall (events_list l) = flat_map expand (map lit_of l).
Proof.
  unfold events_list. induction l as [|x l IH]; simpl; auto. rewrite map_app, IH. f_equal. apply events_calls. discriminate.
Qed.

Lemma prog_marks : forall x k, marks (prog_of x k) = marks k.
Proof.
  fix IH 1. intros [i kd d sp kids] k. destruct kids as [|y ys]; simpl; auto. rewrite IH.
  assert (E : marks (fold_right prog_of PDone ys) = 0) by (induction ys as [|z zs IHz]; simpl; auto; rewrite IH; auto).
  rewrite E. auto.
Qed.
Lemma prog_marks_list ys : marks (fold_right prog_of PDone ys) = 0.
Proof. induction ys; simpl; auto. rewrite prog_marks. auto. Qed.

Lemma prog_calls : forall x n c k, program_calls n c (prog_of x k) = expand (lit_of x) ++ program_calls n c k.
Proof.
  fix IH 1. intros [i kd d sp kids] n c k. destruct kids as [|y ys]; simpl; auto.
  f_equal. rewrite IH. simpl. rewrite <- !app_assoc. f_equal.
  rewrite prog_marks, prog_marks_list, Nat.add_0_r.
  assert (E : program_calls n c (fold_right prog_of PDone ys) = flat_map expand (map lit_of ys)).
  { induction ys as [|z zs IHz]; simpl; auto. rewrite IH, IHz. auto. }
  rewrite E. auto.
Qed.
Lemma prog_calls_list n c l : program_calls n c (fold_right prog_of PDone l) = flat_map expand (map lit_of l).
Proof. induction l as [|x l IH]; simpl; auto. rewrite prog_calls, IH. auto. Qed.

Lemma prog_scoped : forall x k b, scoped b k -> scoped b (prog_of x k).
Proof.
  fix IH 1. intros [i kd d sp kids] k b H. destruct kids as [|y ys]; simpl; auto. split; auto. apply IH.
  induction ys as [|z zs IHz]; simpl; auto.
Qed.
Lemma prog_scoped_list l : scoped false (fold_right prog_of PDone l).
Proof. induction l; simpl; auto. apply prog_scoped. auto. Qed.

Lemma prog_trees : forall x acc k, program_trees acc (prog_of x k) = program_trees (acc ++ [text_of F x]) k.
Proof.
  fix IH 1. intros [i kd d sp kids] acc k. destruct kids as [|y ys]; simpl; auto. do 4 f_equal. rewrite IH. simpl.
  assert (E : forall acc, program_trees acc (fold_right prog_of PDone ys) = acc ++ map (text_of F) ys).
  { induction ys as [|z zs IHz]; intros a; simpl; [rewrite app_nil_r; auto|]. rewrite IH, IHz, <- app_assoc. auto. }
  apply E.
Qed.
Lemma prog_trees_list l acc : program_trees acc (fold_right prog_of PDone l) = acc ++ map (text_of F) l.
Proof. revert acc. induction l as [|x l IH]; intros a; simpl; [rewrite app_nil_r; auto|]. rewrite prog_trees, IH, <- app_assoc. auto. Qed.


(** Sizes and widths. *)
Lemma text_size : forall x : rose T, size (text_of F x) = length (preorder x).
Proof.
  fix IH 1. intros [i k d sp kids]. destruct kids as [|y ys]; [reflexivity|]. simpl. f_equal. rewrite app_length. f_equal; [apply IH|].
  induction ys as [|z zs IHz]; [reflexivity|]. simpl. rewrite app_length. f_equal; [apply IH|apply IHz].
Qed.
Lemma texts_size (l : list (rose T)) : sizes (map (text_of F) l) = length (preorder_list l).
Proof.
  unfold sizes, preorder_list. induction l as [|x l IH]; simpl; auto. rewrite app_length, text_size, IH. auto.
Qed.
Lemma lit_of_size : forall x : rose T, lit_size (lit_of x) = length (preorder x).
Proof.
  fix IH 1. intros [i k d sp kids]. destruct kids as [|y ys]; [reflexivity|]. simpl. f_equal. rewrite app_length. f_equal; [apply IH|].
  induction ys as [|z zs IHz]; [reflexivity|]. simpl. rewrite app_length. f_equal; [apply IH|apply IHz].
Qed.
Lemma lits_size (l : list (rose T)) : list_sum (map lit_size (map lit_of l)) = length (preorder_list l).
Proof.
  unfold preorder_list. induction l as [|x l IH]; simpl; auto. rewrite app_length, lit_of_size, <- IH. auto.
Qed.
Lemma lit_span_free : forall x : rose T, span_free (lit_of x).
Proof.
  fix IH 1. intros [i k d sp kids]. destruct kids as [|y ys]; [exact I|]. simpl. split; [apply IH|].
  induction ys as [|z zs IHz]; simpl; auto.
Qed.
Hypothesis HE : fl_index F <> IxEmpty.
Lemma len_width sp : span_len F sp = SpecEdit.width sp.
Proof. unfold span_len, ix_len_to, SpecEdit.width. destruct (fl_index F); auto. congruence. Qed.
Lemma lits_len F' (l : list (rose T)) : fl_index F' <> IxEmpty -> sumN (map (lit_len F') (map lit_of l)) = total_width l.
Proof.
  intros HE'.
  assert (LE : forall n, (if len_is_empty F' n then 0 else n)%N = n).
  { intros n. unfold len_is_empty. destruct (fl_index F'); try congruence; destruct (N.eqb_spec n 0); auto. }
  assert (A : forall a b : list (rose T), total_width (a ++ b) = (total_width a + total_width b)%N).
  { intros a b. unfold total_width, preorder_list. rewrite flat_map_app, filter_app, fold_right_app.
    generalize (filter (fun x => negb (has_kids x)) (flat_map preorder a)). generalize (fold_right (fun (x : rose T) s => SpecEdit.width (r_span x) + s)%N 0%N (filter (fun x : rose T => negb (has_kids x)) (flat_map preorder b))).
    intros m u. induction u as [|x u IHu]; simpl; auto. rewrite IHu. lia. }
  assert (B : forall x, lit_len F' (lit_of x) = total_width [x]).
  { fix IH 1. intros [i k d sp kids]. destruct kids as [|y ys].
    - simpl. rewrite LE, len_width. unfold total_width. simpl. lia.
    - assert (E : total_width [Nd i k d sp (y :: ys)] = total_width ([y] ++ ys)).
      { unfold total_width, preorder_list. simpl. rewrite app_nil_r. auto. }
      rewrite E, A. simpl. f_equal; [apply IH|]. clear E. induction ys as [|z zs IHz]; auto.
      change (z :: zs) with ([z] ++ zs). rewrite A. simpl. f_equal; [apply IH|apply IHz]. }
  induction l as [|x l IH]; auto. change (x :: l) with ([x] ++ l). rewrite A. simpl. f_equal; auto.
Qed.

Lemma texts_width (l : list (rose T)) : widths (map (text_of F) l) = total_width l.
Proof.
  rewrite <- (lits_len F l HE).
  assert (LE : forall n, (if len_is_empty F n then 0 else n)%N = n).
  { intros n. unfold len_is_empty. destruct (fl_index F); try congruence; destruct (N.eqb_spec n 0); auto. }
  assert (B : forall x, width (text_of F x) = lit_len F (lit_of x)).
  { fix IH 1. intros [i k d sp kids]. destruct kids as [|y ys].
    - simpl. rewrite LE. reflexivity.
    - simpl. f_equal; [apply IH|]. induction ys as [|z zs IHz]; [reflexivity|]. simpl. f_equal; [apply IH|apply IHz]. }
  induction l as [|x l IH]; auto. unfold widths in *. simpl. rewrite B. f_equal; auto.
Qed.

(** Laid out documents are the layout of their text. *)
Lemma lay_kids c (gs : list (gtree T)) :
  (fix go (c : N) (l : list (gtree T)) := match l with [] => [] | g :: l => lay c g :: go (c + width g)%N l end) c gs = lay_list c gs.
Proof. revert c. induction gs as [|g gs IH]; intros c; auto. simpl. rewrite IH. auto. Qed.
Lemma lay_node c (d : T) gs : lay c (GNode d gs) = Sh d (Span c (c + widths gs)) (lay_list c gs).
Proof. simpl. rewrite lay_kids. auto. Qed.

Lemma laid_text :
  (forall s (x : rose T) e, laid s x e -> erase x = lay s (text_of F x) /\ e = (s + width (text_of F x))%N) /\
  (forall s (l : list (rose T)) e, laid_list s l e -> map erase l = lay_list s (map (text_of F) l) /\ e = (s + widths (map (text_of F) l))%N).
Proof.
  apply laid_mut.
  - intros s e i d H. simpl. rewrite len_width. unfold SpecEdit.width. simpl. split; [do 2 f_equal|]; lia.
  - intros s i k d. simpl. rewrite len_width. unfold SpecEdit.width. simpl. split; [do 2 f_equal|]; lia.
  - intros s e i k d x kids H [IH IE]. change (text_of F (Nd i k d (Span s e) (x :: kids))) with (GNode d (map (text_of F) (x :: kids))).
    rewrite lay_node. cbn [erase]. rewrite IH, IE. split; auto.
  - intros s. split; auto. unfold widths. simpl. lia.
  - intros s x m l e Hx [IX EX] Hl [IL EL]. simpl. rewrite IX, IL, EL, EX. split; auto. unfold widths. simpl. lia.
Qed.

(** Documents whose tokens follow each other and whose nodes start with their contents; where nodes end does not matter. *)
Inductive near : N -> rose T -> N -> Prop :=
| near_leaf s e i k d : (s <= e)%N -> near s (Nd i k d (Span s e) []) e
| near_node s e e' i k d y ys : near_list s (y :: ys) e -> near s (Nd i k d (Span s e') (y :: ys)) e
with near_list : N -> list (rose T) -> N -> Prop :=
| near_nil s : near_list s [] s
| near_cons s x m l e : near s x m -> near_list m l e -> near_list s (x :: l) e.
Scheme near_mind := Induction for near Sort Prop with near_list_mind := Induction for near_list Sort Prop.
Combined Scheme near_both from near_mind, near_list_mind.

Lemma near_text :
  (forall s (x : rose T) e, near s x e -> e = (s + width (text_of F x))%N /\ forall x', erase x' = lay s (text_of F x) -> alike_but_ends x x') /\
  (forall s (l : list (rose T)) e, near_list s l e -> e = (s + widths (map (text_of F) l))%N /\
     forall l', map erase l' = lay_list s (map (text_of F) l) -> Forall2 alike_but_ends l l').
Proof.
  apply near_both.
  - intros s e i k d H. simpl. rewrite len_width. unfold SpecEdit.width. simpl. split; [lia|].
    intros [i' k' d' sp' kids'] E. simpl in E. injection E as -> -> E. destruct kids'; [|discriminate].
    replace (s + (e - s))%N with e by lia. constructor.
  - intros s e e' i k d y ys H [IE IH]. change (text_of F (Nd i k d (Span s e') (y :: ys))) with (GNode d (map (text_of F) (y :: ys))).
    rewrite lay_node. split; [rewrite IE; reflexivity|]. intros [i' k' d' sp' kids'] E. cbn [erase] in E. injection E as -> -> E.
    specialize (IH kids' E). inversion IH; subst. constructor; auto.
  - intros s. split; [unfold widths; simpl; lia|]. intros [|? ?] E; [constructor|discriminate].
  - intros s x m l e Hx [EX IX] Hl [EL IL]. split; [rewrite EL, EX; unfold widths; simpl; lia|]. intros [|x' l'] E; [discriminate|].
    simpl in E. injection E as E1 E2. constructor; [apply IX; auto|apply IL; rewrite EX; auto].
Qed.

Lemma near_edited c top f n s (xs : list (rose T)) xs' n' s' up : edited c top f n s xs xs' n' s' up -> near_list s xs' s'.
Proof.
  assert (B : forall n s (d : T) kids s1, near_list s kids s1 -> near s (Nd n KOpen d (Span s (last_reach s kids)) kids) s1).
  { intros n0 s0 d kids s1 H. destruct kids as [|y ys]; [|constructor; auto]. inversion H; subst. constructor. unfold last_reach. simpl. lia. }
  induction 1; try (constructor; fail); auto.
  - econstructor; [|eauto]. constructor. lia.
  - econstructor; [|eauto]. apply B. auto.
  - econstructor; [|eauto]. apply B. auto.
Qed.
Lemma near_replaced i v :
  (forall s (x : rose T) e, near s x e -> near s (set_value i v x) e) /\
  (forall s (l : list (rose T)) e, near_list s l e -> near_list s (map (set_value i v) l) e).
Proof.
  apply near_both; intros; simpl; try (econstructor; eauto; fail).
Qed.
End Replay.

Lemma near_laid T : (forall s (x : rose T) e, laid s x e -> near s x e) /\ (forall s (l : list (rose T)) e, laid_list s l e -> near_list s l e).
Proof. apply laid_mut; intros; try (econstructor; eauto; fail). constructor. lia. Qed.

Lemma mod_near T F (t : tree T) l : modified F t l -> exists e, near_list 0 l e /\ (e <= ix_max F)%N.
Proof.
  induction 1 as [fuel c t0 l0 n s t l Hm Hp He E|t l i n v t' old M (e & IH & B) Hn E].
  - exists s. split; [eapply near_edited; eauto|].
    destruct (C33_outcome T F t0 l0 c Hm Hp) as (l2 & n2 & s2 & He2 & _ & _ & G).
    destruct (edited_det _ _ _ _ _ _ _ _ _ _ _ He _ _ _ _ He2) as (-> & -> & -> & _).
    destruct (G (n2 + 2) (le_n _)) as [_ G2]. destruct (N.le_gt_cases s2 (ix_max F)) as [|Hs]; auto. exfalso.
    specialize (G2 ltac:(intros [_ A]; lia)).
    assert (A : modify (fuel + (n2 + 2)) F c t0 = Ok t) by (apply modify_more; auto; discriminate).
    assert (A2 : modify (n2 + 2 + fuel) F c t0 = Err Overflow) by (apply modify_more; auto; discriminate).
    rewrite Nat.add_comm in A. congruence.
  - exists e. split; auto. apply near_replaced. auto.
Qed.

(** Built again in any flavor with spans: the text of the tree, laid out from 0 without gaps; the only failure is Overflow,
    when the nodes do not fit the pointer width or the text does not fit the index type of the new flavor. *)
Theorem C63_rebuild : forall T F F' (t : tree T) l items, made F t l -> fits F t -> fl_index F <> IxEmpty ->
  vec_flavor F' -> fl_index F' <> IxEmpty ->
  enumerates (total (walk_events_next F (t_nodes t))) (tree_walk t) items ->
  let r := build_try F' (replay F items) in
  ((exists t', r = Ok t') <-> (N.of_nat (tree_len t) <= int_max F' (fl_width F'))%N /\ (total_width l <= ix_max F')%N) /\
  (r = Err Overflow \/
   exists t' l', r = Ok t' /\ builds F' (replay F items) t' /\ document F' (replay F items) l' /\
     map erase l' = lay_list 0 (map (text_of F) l) /\ tree_len t' = tree_len t).
Proof.
  intros T F F' t l items M Hf HE HF' HE' Hi r.
  destruct (g_walk_events_thm F t l (made_good T F t l M Hf)) as (items2 & Ei & V). rewrite (enum_det _ _ _ _ Ei Hi) in V. clear Ei.
  assert (Ec : replay F items = flat_map expand (map (lit_of F) l)) by (rewrite (rcall_of F items _ V); apply events_list_calls).
  assert (El : tree_len t = length (preorder_list l)).
  { destruct (made_facts T F t l M) as (_ & R & _). apply (tr_length _ _ R). }
  subst r. rewrite Ec. split.
  - rewrite El, <- (lits_size F), <- (lits_len F HE F' l HE'). apply (C41_capacity T F' (map (lit_of F) l) HF').
    apply Forall_forall. intros y Hy. apply in_map_iff in Hy as (x & <- & _). apply lit_span_free.
  - destruct (C48_structured T F' (fold_right (prog_of F) PDone l) HF' HE' (prog_scoped_list F l)) as [H _].
    rewrite prog_calls_list, prog_trees_list in H. destruct H as [H|(t' & l' & H1 & H2 & H3 & H4 & H5)]; auto. right.
    exists t', l'. repeat (split; auto). rewrite H5, El. apply texts_size.
Qed.
Print Assumptions C63_rebuild.

Definition replayed {T} (o : op T) : Prop := match o with OOpen _ | OToken _ _ | OClose => True | _ => False end.
Lemma replay_calls T F (items : list (event * node T)) : Forall replayed (replay F items).
Proof.
  induction items as [|[e n] items IH]; simpl; constructor; auto. unfold replay_call. simpl. destruct e, (has_children n); exact I.
Qed.
Lemma replay_no_wrap T F (items : list (event * node T)) : existsb is_close_at (replay F items) = false.
Proof.
  pose proof (replay_calls T F items) as H. induction H as [|o ops Ho _ IH]; auto. simpl. rewrite IH. destruct o; try contradiction; auto.
Qed.
Lemma try_plain T F (ops : list (op T)) : Forall replayed ops -> forall w w' c, run_try F w ops = Ok w' -> plain F c ops (snd (run F w ops)).
Proof.
  induction 1 as [|o ops Ho _ IH]; intros w w' c E; simpl in *; auto.
  destruct (step F w o) as [w1 r] eqn:Es. destruct (run F w1 ops) as [w2 rs] eqn:Er. cbn [snd].
  assert (G : forall c, (forall e, r <> RErr e) -> r <> RDiverge -> plain F c ops rs).
  { intros c0 N1 N2. specialize (IH w1 w' c0). rewrite Er in IH. apply IH. destruct r; auto; exfalso; [eapply N1|apply N2]; eauto. }
  destruct o; try contradiction.
  - apply G; [intros e ->|intros ->]; discriminate.
  - apply G; [intros e ->|intros ->]; discriminate.
  - unfold step in Es. destruct (token F _ _ (w_builder w)) as [b q]. injection Es as _ <-. unfold out_node in *.
    destruct q; try discriminate. apply G; discriminate.
Qed.

Lemma erase_alike T (eqT : T -> T -> bool) : (forall v, eqT v v = true) -> forall l1 l2 : list (rose T), map erase l1 = map erase l2 -> Forall2 (alike eqT) l1 l2.
Proof.
  intros Hq.
  assert (G : forall x1 x2 : rose T, erase x1 = erase x2 -> alike eqT x1 x2).
  { fix IH 1. intros [i1 k1 d1 sp1 kids1] [i2 k2 d2 sp2 kids2] E. simpl in E. injection E as -> -> E. constructor; auto.
    revert kids2 E. induction kids1 as [|y ys IHy]; intros [|z zs] E; try discriminate; constructor.
    - simpl in E. injection E as E _. apply IH. exact E.
    - simpl in E. injection E as _ E. apply IHy. exact E. }
  induction l1 as [|x l1 IH]; intros [|y l2] E; try discriminate; constructor; simpl in E; injection E as E1 E2; auto.
Qed.

(** The facts behind the next two theorems. *)
Lemma rebuilt T F F' (t : tree T) l items : made F t l -> fits F t -> fl_index F <> IxEmpty ->
  vec_flavor F' -> fl_index F' <> IxEmpty ->
  enumerates (total (walk_events_next F (t_nodes t))) (tree_walk t) items ->
  (N.of_nat (tree_len t) <= int_max F' (fl_width F'))%N -> (total_width l <= ix_max F')%N -> (Z.of_nat (tree_len t) < isize_max F')%Z ->
  exists t' l', build_try F' (replay F items) = Ok t' /\ plain_run F' (replay F items) t' l' /\
    map erase l' = lay_list 0 (map (text_of F) l) /\ in_order l'.
Proof.
  intros M Hfit HE HF' HE' Hi Hn Ht Hz.
  destruct (C63_rebuild T F F' t l items M Hfit HE HF' HE' Hi) as [Hc Hr].
  destruct Hc as [_ Hc]. destruct Hc as (t1 & E1); [auto|].
  destruct Hr as [Hr|(t' & l' & E & Hb & Hd & He & Hlen)]; [congruence|]. exists t', l'.
  assert (Hfit' : fits F' t') by (unfold fits; unfold tree_len in *; rewrite Hlen; auto).
  split; auto. split; [|split; auto].
  - split; auto. split; [split; auto|]. unfold build_try in E. destruct (run_try F' world_new (replay F items)) as [w| |] eqn:Et; try discriminate.
    eapply try_plain; eauto. apply replay_calls.
  - destruct (g_walk_events_thm F t l (made_good T F t l M Hfit)) as (items2 & Ei & V). rewrite (enum_det _ _ _ _ Ei Hi) in V.
    assert (Ec : replay F items = flat_map expand (map (lit_of F) l)) by (rewrite (rcall_of F items _ V); apply events_list_calls).
    change (tree_macro F' (map (lit_of F) l)) with (build_try F' (flat_map expand (map (lit_of F) l))) in *.
    destruct (C41_tree T F' (map (lit_of F) l) HF') as [A|(t2 & l2 & A1 & A2 & A3 & _ & A4)].
    { unfold tree_macro in A. unfold build_try in E. rewrite Ec in E. congruence. }
    rewrite <- Ec in A3. destruct A3 as (a1 & r1 & D1 & _ & <-). destruct Hd as (a2 & r2 & D2 & _ & <-). unfold describes in *.
    assert (a1 = a2) as -> by congruence. unfold in_order. rewrite A4. f_equal.
    rewrite <- (map_length r_id), A4, seq_length. auto.
Qed.

(** A tree built without explicit spans (with or without checkpoints) is equal to the one built again, which is there
    whenever nodes and text fit; it is made with [open], [token] and [close] alone, so none of the exceptions for checkpoints
    applies to it. *)
Theorem C63_equal : forall T (eqT : T -> T -> bool) F F' (ops : list (op T)) t l items, (forall v, eqT v v = true) ->
  plain_run F ops t l -> Forall (op_wf F) ops -> vec_flavor F' -> fl_index F' <> IxEmpty ->
  enumerates (total (walk_events_next F (t_nodes t))) (tree_walk t) items ->
  (N.of_nat (tree_len t) <= int_max F' (fl_width F'))%N -> (total_of F ops <= ix_max F')%N -> (Z.of_nat (tree_len t) < isize_max F')%Z ->
  exists t' l', build_try F' (replay F items) = Ok t' /\ plain_run F' (replay F items) t' l' /\
    tree_eq F F' eqT t t' = Ok true /\ map erase l' = map erase l /\ in_order l' /\ existsb is_close_at (replay F items) = false.
Proof.
  intros T eqT F F' ops t l items Hq HP Hw HF' HE' Hi Hn Ht Hz. destruct (plain_width T F ops t l HP Hw) as [Wd _].
  pose proof HP as (HE & Hf & _). destruct (plain_facts T F ops t l HP) as (HL & _).
  assert (M : made F t l) by (eapply made_finished; eauto). assert (Hfit : fits F t) by apply Hf.
  destruct (rebuilt T F F' t l items M Hfit HE HF' HE' Hi Hn ltac:(lia) Hz) as (t' & l' & E & P & He & Ho). exists t', l'.
  assert (Eq : map erase l' = map erase l) by (rewrite He; symmetry; apply (proj2 (laid_text F HE) _ _ _ HL)).
  split; auto. split; auto. split; [|split; auto; split; auto; apply replay_no_wrap].
  destruct P as (_ & Fin & _).
  destruct (C28_equality T eqT F ops t l F' (replay F items) t' l' Hf Fin) as (b & Eb & Hb2). rewrite Eb. f_equal. apply Hb2.
  apply erase_alike; auto.
Qed.
Print Assumptions C63_equal.

Lemma mod_in_order T F (t : tree T) l : modified F t l -> in_order l.
Proof.
  induction 1 as [fuel c t0 l0 n s t l Hm Hp He E|t l i n v t' old M IH Hn E].
  - apply (edited_numbered _ _ _ _ _ _ _ _ _ _ _ He).
  - apply replaced_order. auto.
Qed.
Lemma abe_same T (l l' : list (rose T)) : Forall2 alike_but_ends l l' ->
  map (fun x => (r_span x, true)) (filter (fun x => negb (has_kids x)) (preorder_list l)) = map (fun x => (r_span x, true)) (filter (fun x => negb (has_kids x)) (preorder_list l')) /\
  length (preorder_list l) = length (preorder_list l').
Proof.
  assert (G : forall x x' : rose T, alike_but_ends x x' -> 
    map (fun x => (r_span x, true)) (filter (fun x => negb (has_kids x)) (preorder x)) = map (fun x => (r_span x, true)) (filter (fun x => negb (has_kids x)) (preorder x')) /\
    length (preorder x) = length (preorder x')).
  { fix IH 3. intros x x' H. destruct H as [i i' k k' d sp|i i' k k' d s e e' x x' kids kids' H Hk]; [split; reflexivity|].
    assert (L : map (fun x => (r_span x, true)) (filter (fun x => negb (has_kids x)) (preorder_list kids)) = map (fun x => (r_span x, true)) (filter (fun x => negb (has_kids x)) (preorder_list kids')) /\
      length (preorder_list kids) = length (preorder_list kids')).
    { induction Hk as [|y y' ks ks' Hy Hks IHk]; [split; reflexivity|]. destruct (IH _ _ Hy) as [A1 A2]. destruct IHk as [B1 B2].
      unfold preorder_list in *. simpl. rewrite !filter_app, !map_app, !app_length, A1, A2, B1, B2. split; reflexivity. }
    destruct (IH _ _ H) as [A1 A2]. destruct L as [B1 B2]. unfold preorder_list in *. simpl.
    rewrite !filter_app, !map_app, !app_length, A1, A2, B1, B2. split; reflexivity. }
  induction 1 as [|x x' l l' Hx _ [A1 A2]]; [split; reflexivity|]. destruct (G _ _ Hx) as [B1 B2].
  unfold preorder_list in *. simpl. rewrite !filter_app, !map_app, !app_length, A1, A2, B1, B2. split; reflexivity.
Qed.
Lemma abe_width T (l l' : list (rose T)) : Forall2 alike_but_ends l l' -> total_width l = total_width l'.
Proof.
  intros H. destruct (abe_same T l l' H) as [E _]. unfold total_width. revert E. generalize (filter (fun x : rose T => negb (has_kids x)) (preorder_list l)) (filter (fun x : rose T => negb (has_kids x)) (preorder_list l')).
  induction l0 as [|a l0 IH]; intros [|b l1] E; try discriminate; auto. simpl in *. injection E as E1 E2. rewrite E1, (IH _ E2). auto.
Qed.

(** A tree from [modify], built again, has the same values, shape and tokens, and every node ends where its contents end, which
    [modify] does not see to (C32).  In the flavor of the tree this always succeeds. *)
Theorem C63_modified : forall T F (t : tree T) l items, modified F t l -> fits F t -> fl_index F <> IxEmpty ->
  enumerates (total (walk_events_next F (t_nodes t))) (tree_walk t) items ->
  exists t' l', build_try F (replay F items) = Ok t' /\ plain_run F (replay F items) t' l' /\
    Forall2 alike_but_ends l l' /\ laid_list 0 l' (total_width l) /\ map r_id (preorder_list l') = map r_id (preorder_list l).
Proof.
  intros T F t l items M Hfit HE Hi. pose proof (mod_facts T F t l M) as (Mm & R & _). destruct (made_facts T F t l Mm) as (HF & _ & _ & Hn).
  destruct (mod_near T F t l M) as (e & Nr & Be). destruct (proj2 (near_text F HE) _ _ _ Nr) as [Ee Al]. rewrite (texts_width F HE), N.add_0_l in Ee. subst e.
  assert (El : tree_len t = length (preorder_list l)) by apply (tr_length _ _ R).
  destruct (rebuilt T F F t l items Mm Hfit HE HF HE Hi ltac:(rewrite El; auto) Be Hfit) as (t' & l' & E & P & He & Ho).
  exists t', l'. split; auto. split; auto. assert (Ab : Forall2 alike_but_ends l l') by (apply Al; auto). split; auto.
  assert (HL : laid_list 0 l' (total_of F (replay F items))) by (apply (plain_facts T F _ t' l' P)).
  split.
  - rewrite (abe_width _ _ _ Ab). pose proof (laid_width _ _ _ _ HL) as W. rewrite N.add_0_l in W. rewrite W. auto.
  - pose proof (mod_in_order T F t l M) as Q. unfold in_order in *. rewrite Ho, Q. rewrite (proj2 (abe_same _ _ _ Ab)). auto.
Qed.
Print Assumptions C63_modified.

Lemma lay_lits T F F' : fl_index F' <> IxEmpty -> forall (l l' : list (rose T)) c, map erase l' = lay_list c (map (text_of F) l) -> map (lit_of F') l' = map (lit_of F) l.
Proof.
  intros HE'.
  assert (G : forall (x x' : rose T) c, erase x' = lay c (text_of F x) -> lit_of F' x' = lit_of F x).
  { fix IH 1. intros [i k d sp kids] [i' k' d' sp' kids'] c E. destruct kids as [|y ys].
    - simpl in E. injection E as -> -> E. destruct kids'; [|discriminate]. simpl. f_equal. rewrite (len_width F' HE'). unfold SpecEdit.width. simpl. lia.
    - change (text_of F (Nd i k d sp (y :: ys))) with (GNode d (map (text_of F) (y :: ys))) in E. rewrite lay_node in E.
      cbn [erase] in E. injection E as -> -> E. destruct kids' as [|y' ys']; [discriminate|]. simpl in E. injection E as E1 E2. simpl. f_equal. f_equal; [eapply IH; exact E1|].
      revert ys' E2. generalize (c + width (text_of F y))%N. clear E1. induction ys as [|z zs IHz]; intros c' [|z' zs'] E2; try discriminate; [reflexivity|].
      simpl in E2. injection E2 as E2 E3. simpl. f_equal; [eapply IH; exact E2|eapply IHz; exact E3]. }
  induction l as [|x l IH]; intros [|x' l'] c E; try discriminate; auto. simpl in E. injection E as E1 E2. simpl. f_equal; eauto.
Qed.

(** Building again what was built again makes the same calls. *)
Theorem C63_again : forall T F F' (t : tree T) l items t' l' items', made F t l -> fits F t -> fl_index F <> IxEmpty ->
  enumerates (total (walk_events_next F (t_nodes t))) (tree_walk t) items -> plain_run F' (replay F items) t' l' ->
  build_try F' (replay F items) = Ok t' ->
  enumerates (total (walk_events_next F' (t_nodes t'))) (tree_walk t') items' -> replay F' items' = replay F items.
Proof.
  intros T F F' t l items t' l' items' M Hfit HE Hi P E Hi'. pose proof P as (HE' & Fin & _). pose proof Fin as (HF' & Hd & _).
  destruct (C63_rebuild T F F' t l items M Hfit HE HF' HE' Hi) as [_ [A|(t2 & l2 & A1 & _ & A3 & A4 & _)]]; [congruence|].
  assert (l2 = l') as ->.
  { destruct A3 as (a1 & r1 & D1 & _ & <-). destruct Hd as (a2 & r2 & D2 & _ & <-). unfold describes in *. congruence. }
  destruct (g_walk_events_thm F t l (made_good T F t l M Hfit)) as (i2 & Ei & V). rewrite (enum_det _ _ _ _ Ei Hi) in V.
  destruct (g_walk_events_thm F' t' l' (fin_good F' _ t' l' Fin)) as (i3 & Ei3 & V3). rewrite (enum_det _ _ _ _ Ei3 Hi') in V3.
  rewrite (rcall_of F' _ _ V3), (rcall_of F _ _ V), !events_list_calls.
  f_equal. eapply lay_lits; eauto.
Qed.
Print Assumptions C63_again.

(** The hypotheses are met: p{a, b} c with p made by a checkpoint; and p{q{a}}, copied by [modify], which spoils the end of p. *)
Definition wrap_ops : list (op nat) := [OCheckpoint; OToken 1 3%N; OToken 2 3%N; OCloseAt 0 0; OToken 3 1%N].
Definition wrap_doc : list (rose nat) :=
  [ Nd 2 KWrap 0 (Span 0 6) [Nd 0 KLeaf 1 (Span 0 3) []; Nd 1 KLeaf 2 (Span 3 6) []]; Nd 3 KLeaf 3 (Span 6 7) [] ].
Definition deep_ops : list (op nat) := [OOpen 0; OOpen 1; OToken 2 1%N; OClose; OClose].
Definition deep_doc : list (rose nat) := [Nd 0 KOpen 0 (Span 0 1) [Nd 1 KOpen 1 (Span 0 1) [Nd 2 KLeaf 2 (Span 0 1) []]]].
Lemma wrap_plain : plain_run flavor_default wrap_ops (tree_so_far flavor_default wrap_ops) wrap_doc.
Proof. split; [discriminate|]. split; [|vm_compute; repeat split; intros; discriminate]. compute_finished. Qed.
Lemma deep_plain : plain_run flavor_default deep_ops (tree_so_far flavor_default deep_ops) deep_doc.
Proof. split; [discriminate|]. split; [|vm_compute; repeat split; intros; discriminate]. compute_finished. Qed.
Example C63_inhabited :
  (plain_run flavor_default wrap_ops (tree_so_far flavor_default wrap_ops) wrap_doc /\ Forall (op_wf flavor_default) wrap_ops /\
   exists items, enumerates (total (walk_events_next flavor_default (t_nodes (tree_so_far flavor_default wrap_ops)))) (tree_walk (tree_so_far flavor_default wrap_ops)) items /\
     replay flavor_default items = [OOpen 0; OToken 1 3%N; OToken 2 3%N; OClose; OToken 3 1%N]) /\
  (exists t' l' items, modified flavor_default t' l' /\ fits flavor_default t' /\
     tree_eq flavor_default flavor_default Nat.eqb t' (tree_so_far flavor_default deep_ops) = Ok false /\
     enumerates (total (walk_events_next flavor_default (t_nodes t'))) (tree_walk t') items /\ replay flavor_default items = deep_ops).
Proof.
  split.
  - split; [exact wrap_plain|]. split; [repeat constructor; discriminate|].
    destruct (g_walk_events_thm flavor_default _ _ (fin_good flavor_default _ _ _ (proj1 (proj2 wrap_plain)))) as (items & E & V).
    exists items. split; auto. rewrite (rcall_of flavor_default _ _ V). reflexivity.
  - assert (M : made flavor_default (tree_so_far flavor_default deep_ops) deep_doc).
    { apply (made_finished flavor_default deep_ops). exact (proj1 (proj2 deep_plain)). repeat constructor; discriminate. }
    assert (P : pointers flavor_default []) by (intros i []).
    destruct (modify 20 flavor_default [] (tree_so_far flavor_default deep_ops)) as [t2|e|] eqn:E2; [|exfalso; vm_compute in E2; discriminate|exfalso; vm_compute in E2; discriminate].
    destruct (C58_document _ _ _ _ _ _ _ M P E2) as (l' & M2 & _).
    assert (Hf : fits flavor_default t2) by (vm_compute in E2; injection E2 as <-; vm_compute; reflexivity).
    destruct (g_walk_events_thm flavor_default _ _ (mod_good nat flavor_default _ _ M2 Hf)) as (items & E & V).
    exists t2, l', items. split; auto. split; auto. split; [vm_compute in E2; injection E2 as <-; vm_compute; reflexivity|]. split; auto.
    vm_compute in E2. injection E2 as <-. pose proof (E 6%nat) as E6. clear -E6.
    match type of E6 with ?c = _ => let v := eval vm_compute in c in change (v = Ok (firstn 6 (map Some items ++ repeat None 6))) in E6 end.
    do 5 (destruct items as [|? items]; [discriminate E6|]). destruct items; [|discriminate E6]. injection E6 as <- <- <- <- <-. reflexivity.
Qed.
