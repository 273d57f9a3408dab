(** Property theorems: tree! (C41). *)
From Coq Require Import Lia.
From Verif Require Import Base Pointer Index Tree Builder Hist Node Iter Print Spec SpecMacro Rep Refine TreeRep
  DocInv WalkThms Demo PropsTree.
From Verif Require Layout.

Section Macro.
Context {T : Type}.
Variable F : flavor.
Implicit Types (a : doc T) (l : lit T) (x : rose T).

Lemma lit_ind' (P : lit T -> Prop) :
  (forall d, P (LEmpty d)) -> (forall d len, P (LTok d len)) -> (forall d sp, P (LTokSpan d sp)) ->
  (forall d ls, Forall P ls -> P (LNode d ls)) -> (forall d sp ls, Forall P ls -> P (LNodeSpan d sp ls)) ->
  forall l, P l.
Proof.
  intros H1 H2 H3 H4 H5. fix IH 1. intros [d|d len|d sp|d ls|d sp ls]; [apply H1|apply H2|apply H3|apply H4|apply H5].
  - induction ls; constructor; auto.
  - induction ls; constructor; auto.
Qed.

(** [?] after every call, on documents. *)
Fixpoint a_try (a : doc T) (ops : list (op T)) : option (result (doc T)) :=
  match ops with
  | [] => Some (Ok a)
  | o :: ops =>
    match a_step F a o with
    | None => None
    | Some (a, RErr e) => Some (Err e)
    | Some (a, RDiverge) => Some Diverge
    | Some (a, _) => a_try a ops
    end
  end.

Lemma a_try_app ops1 ops2 : forall a, a_try a (ops1 ++ ops2) =
  match a_try a ops1 with Some (Ok a) => a_try a ops2 | r => r end.
Proof.
  induction ops1 as [|o ops1 IH]; intros a; simpl; auto. destruct (a_step F a o) as [[a1 r]|]; auto. destruct r; auto.
Qed.

Lemma try_refines (HF : vec_flavor F) ops : forall w a r, R w a -> a_try a ops = Some r ->
  match r with
  | Ok a' => exists w' rs, run_try F w ops = Ok w' /\ R w' a' /\ run F w ops = (w', rs) /\ a_run F a ops = Some (a', rs)
  | Err e => run_try F w ops = Err e
  | Diverge => run_try F w ops = Diverge
  end.
Proof.
  induction ops as [|o ops IH]; intros w a r HR E; simpl in E.
  - injection E as <-. exists w, []. auto.
  - destruct (a_step F a o) as [[a1 r1]|] eqn:Es; [|discriminate].
    destruct (step_refines F HF w a o a1 r1 HR Es) as (w1 & Ew & HR1). simpl. rewrite Ew, Es.
    destruct r1; try (injection E as <-; reflexivity);
      specialize (IH w1 a1 r HR1 E); destruct r; auto;
      destruct IH as (w' & rs & E1 & E2 & E3 & E4); rewrite E3, E4; eauto 10.
Qed.

Definition core (f : frame T) := (f_id f, f_data f, f_left f).

(** What one literal does to a document. *)
Record drawn (l : lit T) a a' (x : rose T) : Prop := {
  dr_cur : a_cur a' = a_cur a ++ [x];
  dr_dep : depicts F l x;
  dr_open : map core (a_open a') = map core (a_open a);
  dr_tl : tl (a_open a') = tl (a_open a);
  dr_n : a_n a' = a_n a + lit_size l;
  dr_ids : map r_id (preorder x) = seq (a_n a) (lit_size l);
}.
Record drawn_list (ls : list (lit T)) a a' (xs : list (rose T)) : Prop := {
  dl_cur : a_cur a' = a_cur a ++ xs;
  dl_dep : Forall2 (depicts F) ls xs;
  dl_open : map core (a_open a') = map core (a_open a);
  dl_tl : tl (a_open a') = tl (a_open a);
  dl_n : a_n a' = a_n a + list_sum (map lit_size ls);
  dl_ids : map r_id (preorder_list xs) = seq (a_n a) (list_sum (map lit_size ls));
}.

Lemma core_touch e fs : map core (touch e fs) = map core fs. Proof. destruct fs; auto. Qed.
Lemma core_widen e fs : map core (widen e fs) = map core fs. Proof. destruct fs; auto. Qed.

Lemma tl_touch e (fs : list (frame T)) : tl (touch e fs) = tl fs. Proof. destruct fs; auto. Qed.
Lemma tl_widen e (fs : list (frame T)) : tl (widen e fs) = tl fs. Proof. destruct fs; auto. Qed.

Definition good (l : lit T) : Prop := forall a,
  a_try a (expand l) = Some (Err Overflow) \/ exists a' x, a_try a (expand l) = Some (Ok a') /\ drawn l a a' x.

Lemma good_list ls : Forall good ls -> forall a,
  a_try a (flat_map expand ls) = Some (Err Overflow) \/
  exists a' xs, a_try a (flat_map expand ls) = Some (Ok a') /\ drawn_list ls a a' xs.
Proof.
  induction 1 as [|l ls Hl Hs IH]; intros a.
  - right. exists a, []. split; auto. constructor; simpl; auto. rewrite app_nil_r; auto.
  - simpl. rewrite a_try_app. destruct (Hl a) as [->|(a1 & x & -> & D)]; auto.
    destruct (IH a1) as [->|(a2 & xs & -> & E)]; auto. right. exists a2, (x :: xs). split; auto.
    destruct D as [D1 D2 D3 D6 D4 D5], E as [E1 E2 E3 E6 E4 E5]. constructor.
    + rewrite E1, D1, <- app_assoc. auto.
    + constructor; auto.
    + congruence.
    + congruence.
    + simpl. lia.
    + unfold preorder_list in *. simpl. rewrite map_app, D5, E5, D4, seq_app. auto.
Qed.

Lemma good_node (d : T) sp ls l : (forall i sp' kids, Forall2 (depicts F) ls kids -> (ls = [] -> sp' = sp) -> depicts F l (Nd i KOpen d sp' kids)) ->
  lit_size l = S (list_sum (map lit_size ls)) -> Forall good ls -> forall a,
  let r := match a_open_with F d sp a with
           | (a, RErr e) => Some (Err e)
           | (a, _) => a_try a (flat_map expand ls ++ [OClose])
           end in
  r = Some (Err Overflow) \/ exists a' x, r = Some (Ok a') /\ drawn l a a' x.
Proof.
  intros Hd Hsz Hls a r. subst r. unfold a_open_with. destruct (full F a); auto.
  rewrite a_try_app. set (a0 := Doc _ _ _ _ _ _ _).
  destruct (good_list ls Hls a0) as [->|(a1 & xs & Et & E)]; auto. rewrite Et.
  destruct E as [E1 E2 E3 E6 E4 E5]. subst a0. simpl in *.
  unfold a_close. destruct (a_open a1) as [|f fs] eqn:Eo; [discriminate|]. injection E3 as I1 I2 I3 I4.
  right. do 2 eexists. split; [reflexivity|]. constructor; simpl.
  - rewrite I3, I1, I2. reflexivity.
  - subst xs. apply Hd; auto. intros ->. simpl in Et. injection Et as <-. simpl in Eo. injection Eo as <- _. auto.
  - rewrite core_widen, I4, core_touch. auto.
  - simpl in E6. rewrite tl_widen, E6, tl_touch. auto.
  - rewrite E4, Hsz. lia.
  - subst xs. unfold preorder_list in E5. simpl. rewrite E5, Hsz. auto.
Qed.

Lemma all_good l : good l.
Proof.
  induction l as [d|d len|d sp|d ls IH|d sp ls IH] using lit_ind'; intros a.
  - simpl. unfold a_token. assert (E : len_is_empty F 0 = true) by (unfold len_is_empty; destruct (fl_index F); auto). rewrite E.
    destruct (full F a); auto. right. do 2 eexists. split; [reflexivity|]. constructor; simpl; auto; try lia.
    + constructor.
    + apply core_touch.
    + apply tl_touch.
  - simpl. unfold a_token. destruct (len_is_empty F len) eqn:E.
    + destruct (full F a); auto. right. do 2 eexists. split; [reflexivity|]. constructor; simpl; auto; try lia.
      * constructor. rewrite E. auto.
      * apply core_touch.
      * apply tl_touch.
    + destruct (ix_checked_add_len F (a_cursor a) len) as [c|] eqn:Ec; auto. destruct (full F a); auto.
      right. do 2 eexists. split; [reflexivity|]. constructor; simpl; auto; try lia.
      * constructor. rewrite E. unfold ix_checked_add_len in Ec. unfold len_is_empty in E.
        destruct (fl_index F); try discriminate.
        -- destruct (N.leb len _); [|discriminate]. destruct (N.leb _ _); [|discriminate]. congruence.
        -- destruct (N.leb _ _); [|discriminate]. congruence.
      * apply core_touch.
      * apply tl_touch.
  - simpl. unfold a_token_with. destruct (full F a); auto. right. do 2 eexists. split; [reflexivity|]. constructor; simpl; auto; try lia.
    + constructor.
    + rewrite core_widen. apply core_touch.
    + rewrite tl_widen. apply tl_touch.
  - simpl. pose proof (good_node d (span_point (a_cursor a)) ls (LNode d ls)) as G.
    specialize (G (fun i sp' kids Hk _ => dp_node F d ls i sp' kids Hk) eq_refl IH a). simpl in G. destruct (a_open_with F d _ a) as [a1 r] eqn:Eo.
    unfold a_open_with in Eo. destruct (full F a); injection Eo as <- <-; auto.
  - simpl. pose proof (good_node d sp ls (LNodeSpan d sp ls)) as G.
    specialize (G (fun i sp' kids Hk H => dp_node_span F d sp ls i sp' kids Hk H) eq_refl IH a). simpl in G. destruct (a_open_with F d _ a) as [a1 r] eqn:Eo.
    unfold a_open_with in Eo. destruct (full F a); injection Eo as <- <-; auto.
Qed.

(** ** When a literal without spans fits *)
Definition edge a : Prop := match a_open a with [] => True | f :: _ => s_end (f_span f) = a_cursor a end.

Definition room (a : doc T) (n : nat) (len : N) : Prop :=
  (N.of_nat (a_n a + n) <= int_max F (fl_width F))%N /\ (a_cursor a + len <= ix_max F)%N.

Record ends (a a' : doc T) (n : nat) (len : N) : Prop := {
  en_n : a_n a' = a_n a + n;
  en_cursor : a_cursor a' = (a_cursor a + len)%N;
  en_edge : edge a';
  en_room : room a n len;
  en_open : length (a_open a') = length (a_open a);
}.

Definition tight (l : lit T) : Prop := span_free l -> forall a, edge a -> room a 0 0 ->
  (room a (lit_size l) (lit_len F l) <-> exists a', a_try a (expand l) = Some (Ok a')) /\
  (forall a', a_try a (expand l) = Some (Ok a') -> ends a a' (lit_size l) (lit_len F l)).

Lemma not_full a : full F a = false <-> room a 1 0 \/ (N.of_nat (a_n a) < int_max F (fl_width F))%N.
Proof. unfold full, room. rewrite N.leb_gt. lia. Qed.

Lemma tight_list ls : Forall tight ls -> fold_right (fun l P => span_free l /\ P) True ls ->
  forall a, edge a -> room a 0 0 ->
  (room a (list_sum (map lit_size ls)) (sumN (map (lit_len F) ls)) <-> exists a', a_try a (flat_map expand ls) = Some (Ok a')) /\
  (forall a', a_try a (flat_map expand ls) = Some (Ok a') -> ends a a' (list_sum (map lit_size ls)) (sumN (map (lit_len F) ls)) /\ (ls = [] -> a' = a)).
Proof.
  induction 1 as [|l ls Hl Hs IH]; intros Hf a He Hr.
  - simpl. split; [split; eauto|]. intros a' E. injection E as <-. split; auto. constructor; auto; lia.
  - destruct Hf as [Hf1 Hf2]. destruct (Hl Hf1 a He Hr) as [L1 L2]. simpl. rewrite a_try_app.
    destruct (a_try a (expand l)) as [[a1|e|]|] eqn:E1.
    + specialize (L2 a1 eq_refl). destruct L2 as [M1 M2 M3 M4 M5].
      assert (Hr1 : room a1 0 0) by (unfold room in *; rewrite M1, M2; lia).
      destruct (IH Hf2 a1 M3 Hr1) as [I1 I2]. split.
      * rewrite <- I1. unfold room in *. rewrite M1, M2. lia.
      * intros a' E. destruct (I2 a' E) as [[N1 N2 N3 N4 N5] _]. split; [|discriminate].
        constructor; auto; try lia. unfold room in *. rewrite M1, M2 in N4. lia.
    + split; [|discriminate]. split; [|intros (? & ?); discriminate]. intros R0. exfalso.
      assert (R1 : room a (lit_size l) (lit_len F l)) by (unfold room in *; lia). apply L1 in R1 as (? & ?); discriminate.
    + split; [|discriminate]. split; [|intros (? & ?); discriminate]. intros R0. exfalso.
      assert (R1 : room a (lit_size l) (lit_len F l)) by (unfold room in *; lia). apply L1 in R1 as (? & ?); discriminate.
    + split; [|discriminate]. split; [|intros (? & ?); discriminate]. intros R0. exfalso.
      assert (R1 : room a (lit_size l) (lit_len F l)) by (unfold room in *; lia). apply L1 in R1 as (? & ?); discriminate.
Qed.

Lemma edge_touch c fs : match touch c fs with [] => True | f :: _ => s_end (@f_span T f) = c end.
Proof. destruct fs; simpl; auto. Qed.

Lemma all_tight l : tight l.
Proof.
  induction l as [d|d len|d sp|d ls IH|d sp ls IH] using lit_ind'; intros Hf a He Hr; try (destruct Hf; fail).
  - simpl. unfold a_token. assert (E : len_is_empty F 0 = true) by (unfold len_is_empty; destruct (fl_index F); auto). rewrite E.
    destruct (full F a) eqn:Ef.
    + split; [split|]; [|intros (? & ?); discriminate|intros; discriminate].
      intros R0. exfalso. assert (full F a = false) by (apply not_full; auto). congruence.
    + apply not_full in Ef. assert (room a 1 0) by (unfold room in *; lia).
      split; [split; eauto|]. intros a' Ea. injection Ea as <-. constructor; simpl; auto; try lia.
      * unfold edge; simpl. apply edge_touch.
      * rewrite touch_length. auto.
  - simpl. unfold a_token. destruct (len_is_empty F len) eqn:E.
    + destruct (full F a) eqn:Ef.
      * split; [split|]; [|intros (? & ?); discriminate|intros; discriminate].
        intros R0. exfalso. assert (full F a = false) by (apply not_full; auto). congruence.
      * apply not_full in Ef. assert (room a 1 0) by (unfold room in *; lia).
        split; [split; eauto|]. intros a' Ea. injection Ea as <-. constructor; simpl; auto; try lia.
        -- unfold edge; simpl. apply edge_touch.
        -- rewrite touch_length. auto.
    + assert (HE : fl_index F <> IxEmpty) by (unfold len_is_empty in E; destruct (fl_index F); congruence).
      rewrite (Layout.checked_add F HE). destruct (N.leb_spec (a_cursor a + len) (ix_max F)) as [Hc|Hc].
      * destruct (full F a) eqn:Ef.
        -- split; [split|]; [|intros (? & ?); discriminate|intros; discriminate].
           intros R0. exfalso. assert (full F a = false) by (apply not_full; unfold room in *; lia). congruence.
        -- apply not_full in Ef. assert (room a 1 len) by (unfold room in *; lia).
           split; [split; eauto|]. intros a' Ea. injection Ea as <-. constructor; simpl; auto; try lia.
           ++ unfold edge; simpl. apply edge_touch.
           ++ rewrite touch_length. auto.
      * split; [split|]; [|intros (? & ?); discriminate|intros; discriminate].
        intros R0. exfalso. unfold room in *. lia.
  - simpl. simpl in Hf. unfold a_open_with. destruct (full F a) eqn:Ef.
    + split; [split|]; [|intros (? & ?); discriminate|intros; discriminate].
      intros R0. exfalso. assert (full F a = false) by (apply not_full; unfold room in *; lia). congruence.
    + apply not_full in Ef. set (a0 := Doc _ _ _ _ _ _ _). rewrite a_try_app.
      assert (Hr0 : room a0 0 0) by (unfold room, a0 in *; simpl; lia).
      destruct (tight_list ls IH Hf a0 eq_refl Hr0) as [L1 L2].
      assert (Hq : room a0 (list_sum (map lit_size ls)) (sumN (map (lit_len F) ls)) <-> room a (S (list_sum (map lit_size ls))) (sumN (map (lit_len F) ls))).
      { unfold room, a0; simpl. lia. }
      rewrite <- Hq, L1. destruct (a_try a0 (flat_map expand ls)) as [[a1|e|]|] eqn:E1.
      * destruct (L2 a1 eq_refl) as [[M1 M2 M3 M4 M5] M6]. simpl. unfold a_close.
        destruct (a_open a1) as [|f fs] eqn:Eo; [subst a0; simpl in M5; discriminate|].
        split; [split; eauto|]. intros a' Ea. injection Ea as <-.
        unfold edge in M3. rewrite Eo in M3. constructor; simpl; auto; try lia.
        -- rewrite M1. subst a0; simpl. lia.
        -- rewrite M3, M2. auto.
        -- unfold edge. simpl. destruct fs as [|f2 fs]; simpl; auto.
           (* the enclosing node was at the cursor, which did not go back *)
           assert (G : s_end (f_span f2) = a_cursor a); [|rewrite G, M3, M2; subst a0; simpl; lia].
           destruct (good_list ls ltac:(apply Forall_forall; intros; apply all_good) a0) as [X|(a2 & xs & X & D)]; rewrite E1 in X; [discriminate|].
           injection X as <-. pose proof (dl_tl _ _ _ _ D) as Gx. rewrite Eo in Gx. subst a0; simpl in Gx.
           pose proof (edge_touch (a_cursor a) (a_open a)) as Gy. unfold span_point in Gx; simpl in Gx. rewrite <- Gx in Gy. exact Gy.
        -- apply Hq; auto.
        -- rewrite widen_length. subst a0; simpl in M5. rewrite touch_length in M5. injection M5 as ->. auto.
      * split; [split; intros (? & ?); discriminate|intros; discriminate].
      * split; [split; intros (? & ?); discriminate|intros; discriminate].
      * split; [split; intros (? & ?); discriminate|intros; discriminate].
Qed.
End Macro.

(** [tree!] never loops and fails only with Overflow; what it returns is the tree of the calls it
    stands for, whose document the literal depicts, numbered in walk order. *)
Theorem C41_tree : forall T F (ls : list (lit T)), vec_flavor F ->
  tree_macro F ls = Err Overflow \/
  exists t l, tree_macro F ls = Ok t /\ builds F (flat_map expand ls) t /\ document F (flat_map expand ls) l /\
    Forall2 (depicts F) ls l /\ map r_id (preorder_list l) = seq 0 (tree_len t).
Proof.
  intros T F ls HF. unfold tree_macro.
  destruct (good_list F ls ltac:(apply Forall_forall; intros; apply all_good) doc_new) as [E|(a & xs & E & D)].
  - left. rewrite (try_refines F HF _ _ _ _ R_new E). auto.
  - right. destruct (try_refines F HF _ _ _ _ R_new E) as (w & rs & E1 & HR & E2 & E3). rewrite E1.
    destruct D as [D1 D2 D3 _ D4 D5]. simpl in *. destruct (a_open a) eqn:Eo; [|discriminate].
    exists (b_tree (w_builder w)), xs.
    assert (Hb : build (w_builder w) = Ok (b_tree (w_builder w))).
    { unfold build. rewrite (br_parent _ _ (r_builder _ _ HR)), Eo. auto. }
    split; auto. split; [|split].
    + unfold builds, run_world. rewrite E2. auto.
    + exists a, rs. split; auto.
    + split; auto. rewrite D5. unfold tree_len. rewrite (br_len _ _ (r_builder _ _ HR)). congruence.
Qed.
Print Assumptions C41_tree.

(** Without explicit spans it succeeds exactly when the nodes fit the pointer width and the text
    fits the index type. *)
Theorem C41_capacity : forall T F (ls : list (lit T)), vec_flavor F -> Forall span_free ls ->
  ((exists t, tree_macro F ls = Ok t) <->
   (N.of_nat (list_sum (map lit_size ls)) <= int_max F (fl_width F))%N /\
   (sumN (map (lit_len F) ls) <= ix_max F)%N).
Proof.
  intros T F ls HF Hs.
  assert (Hs' : fold_right (fun l P => span_free l /\ P) True ls) by (induction Hs; simpl; auto).
  assert (Hr : @room T F doc_new 0 0) by (unfold room; simpl; lia).
  destruct (tight_list F ls ltac:(apply Forall_forall; intros; apply all_tight) Hs' doc_new I Hr) as [H1 _].
  assert (Hq : @room T F doc_new (list_sum (map lit_size ls)) (sumN (map (lit_len F) ls)) <->
   (N.of_nat (list_sum (map lit_size ls)) <= int_max F (fl_width F))%N /\
   (sumN (map (lit_len F) ls) <= ix_max F)%N) by (unfold room; simpl; lia).
  rewrite <- Hq, H1. clear Hq H1. unfold tree_macro.
  destruct (good_list F ls ltac:(apply Forall_forall; intros; apply all_good) doc_new) as [E|(a & xs & E & D)]; rewrite E;
    pose proof (try_refines F HF _ _ _ _ R_new E) as G; simpl in G.
  - rewrite G. split; intros (? & ?); discriminate.
  - destruct G as (w & rs & E1 & HR & _). rewrite E1. split; intros _; eauto.
    exists (b_tree (w_builder w)). unfold build. rewrite (br_parent _ _ (r_builder _ _ HR)).
    pose proof (dl_open _ _ _ _ _ D) as D3. simpl in D3. destruct (a_open a); [auto|discriminate].
Qed.
Print Assumptions C41_capacity.

(** The walk of the tree is the pre-order of the literal. *)
Fixpoint lit_values {T} (l : lit T) : list T :=
  match l with
  | LEmpty d | LTok d _ | LTokSpan d _ => [d]
  | LNode d ls | LNodeSpan d _ ls => d :: flat_map lit_values ls
  end.

Lemma depicts_values {T} F (l : lit T) : forall x, depicts F l x -> map r_data (preorder x) = lit_values l.
Proof.
  assert (G : forall ls : list (lit T), Forall (fun l => forall x, depicts F l x -> map r_data (preorder x) = lit_values l) ls ->
     forall xs, Forall2 (depicts F) ls xs -> map r_data (preorder_list xs) = flat_map lit_values ls).
  { induction 1 as [|l0 ls Hl _ IH]; intros xs Hx; inversion Hx; subst; simpl; auto.
    unfold preorder_list. simpl. rewrite map_app. f_equal; auto. apply IH; auto. }
  induction l as [d|d len|d sp|d ls IH|d sp ls IH] using lit_ind'; intros x Hx; inversion Hx; subst; simpl; auto; f_equal; apply G; auto.
Qed.

Theorem C41_walk : forall T F (ls : list (lit T)) t, vec_flavor F -> tree_macro F ls = Ok t -> fits F t ->
  exists items, enumerates (walk_next F (t_nodes t)) (tree_walk t) items /\
    map node_value items = flat_map lit_values ls.
Proof.
  intros T F ls t HF Ht Hfit. destruct (C41_tree T F ls HF) as [E|(t' & l & E & Hb & Hd & Hdep & _)]; rewrite Ht in E; [discriminate|].
  injection E as <-. destruct (C19_walk T F (flat_map expand ls) t l) as (items & En & V).
  { split; auto. }
  exists items. split; auto.
  transitivity (map r_data (preorder_list l)).
  - clear -V. revert V. generalize (preorder_list l). induction items as [|n items IH]; intros [|x xs] V; try discriminate; auto.
    simpl in V. injection V as _ D _ _ V. simpl. rewrite D. f_equal. auto.
  - clear -Hdep. induction Hdep; simpl; auto. unfold preorder_list in *. simpl. rewrite map_app. f_equal; auto. eapply depicts_values; eauto.
Qed.
Print Assumptions C41_walk.

Definition macro_demo : list (lit nat) :=
  [LNode 1 [LTok 2 3; LNode 3 [LEmpty 4]; LNode 5 []]; LTokSpan 6 (Span 3 8); LNodeSpan 7 (Span 8 9) [LTok 8 2]].
Example C41_inhabited : exists t, tree_macro flavor_default macro_demo = Ok t /\ tree_len t = 8 /\
  (exists t, tree_macro flavor_default (firstn 1 macro_demo) = Ok t) /\
  tree_macro (Flavor usize_max_64 IxU32 U8 SVec SVec) (repeat (LEmpty 0) 256) = Err Overflow.
Proof. eexists. split; [vm_compute; reflexivity|]. split; [vm_compute; reflexivity|]. split; [eexists; vm_compute; reflexivity|vm_compute; reflexivity]. Qed.
