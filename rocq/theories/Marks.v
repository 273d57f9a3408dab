(** Checkpoints: the cells of the heap agree with the positions of the
    specification. *)
From Coq Require Import Lia Permutation.
From Verif Require Import Base Pointer Index Tree Builder Hist Spec Rep.

Section Marks.
Context {T : Type}.
Implicit Types fs : list (frame T).

(** [kids] are the identifiers at the innermost level, followed by the
    identifier the next insertion there will get. *)
Fixpoint pos_ok fs (kids : list nat) (l : option nat) (p node : nat) : Prop :=
  (l = level fs -> nth_error kids p = Some node) /\
  match fs with
  | [] => True
  | f :: fs => pos_ok fs (map r_id (f_left f) ++ [f_id f]) l p node
  end.

Fixpoint open_ids fs : list nat :=
  match fs with [] => [] | f :: fs => f_id f :: open_ids fs end.

Definition mark_ok (h : heap) fs (kids : list nat) (n : nat) (a : nat) (m : mark) : Prop :=
  exists c, nth_error h a = Some c /\ c_parent c = mark_level m /\
    (forall i, mark_level m = Some i -> i < n) /\
    match m with
    | MAt l p => pos_ok fs kids l p (c_node c)
    | MGone _ => True
    end.

Record marks_inv (h : heap) (memo : option nat) (env : list nat) (marks : list mark)
  fs (kids : list nat) (n : nat) : Prop := {
  mi_ok : Forall2 (mark_ok h fs kids n) env marks;
  mi_share : forall k1 k2 l p, nth_error marks k1 = Some (MAt l p) ->
      nth_error marks k2 = Some (MAt l p) -> nth_error env k1 = nth_error env k2;
  mi_memo : forall k, nth_error marks k = Some (MAt (level fs) (pred (length kids))) ->
      memo = nth_error env k;
}.

Lemma Forall2_impl {A B} (P Q : A -> B -> Prop) l1 l2 :
  (forall a b, P a b -> Q a b) -> Forall2 P l1 l2 -> Forall2 Q l1 l2.
Proof. intros HPQ H; induction H; constructor; auto. Qed.

Lemma Forall2_length {A B} (P : A -> B -> Prop) l1 l2 :
  Forall2 P l1 l2 -> length l1 = length l2.
Proof. intros H; induction H; simpl; auto. Qed.

Lemma Forall2_nth {A B} (P : A -> B -> Prop) l1 l2 k b :
  Forall2 P l1 l2 -> nth_error l2 k = Some b -> exists a, nth_error l1 k = Some a /\ P a b.
Proof.
  intros H; revert k; induction H; intros [|k] E; simpl in *; try discriminate; eauto.
  injection E as ->. eauto.
Qed.

Lemma pos_ok_frames fs fs' kids l p node :
  map f_id fs = map f_id fs' -> map f_left fs = map f_left fs' ->
  pos_ok fs kids l p node -> pos_ok fs' kids l p node.
Proof.
  revert fs' kids; induction fs as [|f fs IH]; intros [|f' fs'] kids E1 E2 H; try discriminate; auto.
  simpl in *. injection E1 as E1 E1'. injection E2 as E2 E2'.
  destruct H as [H1 H2]. rewrite <- E1, <- E2. split; auto.
Qed.

Lemma touch_frames e fs :
  map f_id (touch e fs) = map f_id fs /\ map f_left (touch e fs) = map f_left fs
  /\ level (touch e fs) = level fs.
Proof. destruct fs; auto. Qed.
Lemma widen_frames e fs :
  map f_id (widen e fs) = map f_id fs /\ map f_left (widen e fs) = map f_left fs
  /\ level (widen e fs) = level fs.
Proof. destruct fs; auto. Qed.

Lemma level_map fs fs' : map f_id fs = map f_id fs' -> level fs = level fs'.
Proof. destruct fs, fs'; simpl; intros E; congruence. Qed.

Lemma marks_frames h memo env marks fs fs' kids n :
  map f_id fs = map f_id fs' -> map f_left fs = map f_left fs' ->
  marks_inv h memo env marks fs kids n -> marks_inv h memo env marks fs' kids n.
Proof.
  intros E1 E2 [H1 H2 H3]. constructor; auto.
  - eapply Forall2_impl; [|apply H1]. intros a m (c & Hc & Hp & Hl & Hm).
    exists c. repeat split; auto. destruct m; auto. eapply pos_ok_frames; eauto.
  - rewrite <- (level_map _ _ E1). auto.
Qed.

Lemma pos_ok_extend fs kids more l p node :
  pos_ok fs kids l p node -> pos_ok fs (kids ++ more) l p node.
Proof.
  destruct fs; simpl; intros [H1 H2]; split; auto; intros E; specialize (H1 E);
    rewrite nth_error_app1; auto; apply nth_error_Some; congruence.
Qed.

Lemma pos_ok_bound fs kids l p node :
  pos_ok fs kids l p node -> l = level fs -> p < length kids.
Proof.
  destruct fs; simpl; intros [H _] E; apply nth_error_Some; rewrite (H E); congruence.
Qed.

(** A node was added at the current level. *)
Lemma marks_insert h memo env marks fs kids n m :
  marks_inv h memo env marks fs kids n -> n <= m ->
  marks_inv h memo env marks fs (kids ++ [m]) m.
Proof.
  intros [H1 H2 H3] Hm. constructor; auto.
  - eapply Forall2_impl; [|apply H1]. intros a x (c & Hc & Hp & Hl & Hx).
    exists c. repeat split; auto.
    + intros i Hi. specialize (Hl i Hi). lia.
    + destruct x; auto. apply pos_ok_extend; auto.
  - intros k Hk. exfalso.
    destruct (Forall2_nth _ _ _ _ _ H1 Hk) as (a & _ & c & _ & _ & _ & Hx).
    apply pos_ok_bound in Hx; auto. rewrite app_length in Hx. simpl in Hx. lia.
Qed.

(** A node was opened. *)
Lemma marks_open h memo env marks fs (left : list (rose T)) f n :
  marks_inv h memo env marks fs (map r_id left ++ [n]) n ->
  f_id f = n -> f_left f = left ->
  marks_inv h memo env marks (f :: fs) [S n] (S n).
Proof.
  intros [H1 H2 H3] Ef El. constructor; auto.
  - eapply Forall2_impl; [|apply H1]. intros a x (c & Hc & Hp & Hl & Hx).
    exists c. repeat split; auto.
    + intros i Hi. specialize (Hl i Hi). lia.
    + destruct x; auto. simpl. rewrite Ef, El. split; auto.
      intros ->. simpl in Hl. specialize (Hl n eq_refl). lia.
  - intros k Hk. exfalso. simpl in Hk. rewrite Ef in Hk.
    destruct (Forall2_nth _ _ _ _ _ H1 Hk) as (a & _ & c & _ & _ & Hl & Hx).
    simpl in Hl. specialize (Hl n eq_refl). lia.
Qed.

(** The innermost node was closed. *)
Lemma marks_close h memo env marks f fs kids n :
  marks_inv h memo env marks (f :: fs) kids n ->
  marks_inv h memo env marks fs (map r_id (f_left f) ++ [f_id f] ++ [n]) n.
Proof.
  intros [H1 H2 H3]. constructor; auto.
  - eapply Forall2_impl; [|apply H1]. intros a x (c & Hc & Hp & Hl & Hx).
    exists c. repeat split; auto. destruct x; auto.
    simpl in Hx. destruct Hx as [_ Hx]. rewrite app_assoc. apply pos_ok_extend; auto.
  - intros k Hk. exfalso.
    destruct (Forall2_nth _ _ _ _ _ H1 Hk) as (a & _ & c & _ & _ & Hl & Hx).
    simpl in Hx. destruct Hx as [_ Hx].
    apply pos_ok_bound in Hx; auto. rewrite !app_length in Hx. simpl in Hx. lia.
Qed.

(** The level of a frame occurs only once. *)
Lemma pos_ok_cur_only fs kids kids' l p node :
  l <> level fs -> pos_ok fs kids l p node -> pos_ok fs kids' l p node.
Proof. destruct fs; simpl; intros Hl [_ H]; split; auto; congruence. Qed.

Lemma pos_ok_not_open fs kids l p node :
  (match l with Some i => ~ In i (open_ids fs) | None => fs <> [] /\ False end) ->
  pos_ok fs kids l p node.
Proof.
  revert kids; induction fs as [|f fs IH]; intros kids H; destruct l as [i|]; simpl in *;
    try tauto.
  - split; auto. congruence.
  - split.
    + intros E; injection E as ->. tauto.
    + apply IH. tauto.
Qed.

(** .. so the position in the other levels does not constrain a mark of the
    current level. *)
Lemma pos_ok_change fs kids kids' l p node node' :
  NoDup (open_ids fs) -> l = level fs -> pos_ok fs kids l p node ->
  nth_error kids' p = Some node' -> pos_ok fs kids' l p node'.
Proof.
  intros Hd -> H E. destruct fs as [|f fs]; simpl in *; split; auto.
  destruct H as [_ H]. inversion Hd as [|? ? Hn Hd']; subst.
  apply pos_ok_not_open. auto.
Qed.

(** Siblings from position [pos] on were wrapped into node [n], and the cell of
    the checkpoint used now names [n]. *)
Lemma marks_wrap h memo env marks fs base w n k pos a :
  marks_inv h memo env marks fs (base ++ w ++ [n]) n ->
  NoDup (base ++ w ++ [n]) -> NoDup (open_ids fs) ->
  nth_error marks k = Some (MAt (level fs) pos) -> nth_error env k = Some a ->
  pos = length base -> w <> [] ->
  marks_inv (upd h a (fun _ => Cell n (level fs))) memo env
    (map (swallow (level fs) pos) marks) fs (base ++ [n] ++ [S n]) (S n).
Proof.
  intros [H1 H2 H3] Hd Ho Hk Ha Hpos Hw.
  destruct (Forall2_nth _ _ _ _ _ H1 Hk) as (a' & Ha' & ca & Hca & Hpa & Hla & Hxa).
  assert (a' = a) as -> by congruence. clear Ha'.
  constructor.
  - (* mark_ok *)
    clear H3.
    assert (HH : Forall2 (fun a' m => mark_ok h fs (base ++ w ++ [n]) n a' m /\
                  (forall l p, m = MAt l p -> l = level fs -> p = pos -> a' = a)) env marks).
    { clear -H1 H2 Hk Ha.
      assert (G : forall j a' m, nth_error env j = Some a' -> nth_error marks j = Some m ->
                  (forall l p, m = MAt l p -> l = level fs -> p = pos -> a' = a)).
      { intros j a' m E1 E2 l p -> -> ->. specialize (H2 _ _ _ _ E2 Hk). congruence. }
      clear H2 Hk Ha. revert G. induction H1 as [|x m env marks Hx H IH]; intros G; constructor.
      - split; auto. exact (G 0 _ _ eq_refl eq_refl).
      - apply IH. intros j a' m' E1 E2. exact (G (S j) _ _ E1 E2). }
    clear H1 H2 Hk Ha. induction HH as [|x m env' marks' [Hx Hs] HH IH]; simpl; constructor; auto.
    destruct Hx as (c & Hc & Hp & Hl & Hx).
    destruct (Nat.eq_dec x a) as [->|Hne].
    + (* same cell *)
      assert (c = ca) as -> by congruence.
      exists (Cell n (level fs)). rewrite nth_upd_same, Hc. simpl.
      assert (Elv : mark_level m = level fs) by (simpl in Hpa; congruence).
      assert (Elv' : mark_level (swallow (level fs) pos m) = level fs).
      { destruct m as [l p|l]; simpl in *; auto.
        destruct (opt_nat_eqb l (level fs) && Nat.ltb pos p); auto. }
      repeat split; auto.
      * rewrite Elv'. intros i Hi. rewrite <- Elv in Hi. specialize (Hl i Hi). lia.
      * destruct m as [l p|l]; simpl in *; auto. clear Hp. subst l. rewrite opt_nat_eqb_refl. simpl.
        destruct (Nat.ltb_spec pos p); auto.
        assert (p = pos) as ->.
        { assert (E1 : nth_error (base ++ w ++ [n]) p = Some (c_node ca)).
          { destruct fs; simpl in Hx; tauto. }
          assert (E2 : nth_error (base ++ w ++ [n]) pos = Some (c_node ca)).
          { destruct fs; simpl in Hxa; tauto. }
          apply (proj1 (NoDup_nth_error _) Hd); [|congruence].
          apply nth_error_Some; congruence. }
        eapply pos_ok_change; eauto.
        rewrite nth_error_app2 by lia. subst pos. rewrite Nat.sub_diag. auto.
    + exists c. rewrite nth_upd_other by auto. split; auto.
      destruct m as [l p|l]; simpl in *.
      * destruct (opt_nat_eqb_spec l (level fs)) as [->|Hl']; simpl.
        -- destruct (Nat.ltb_spec pos p); simpl.
           ++ repeat split; auto. intros i Hi; specialize (Hl i Hi); lia.
           ++ repeat split; auto. { intros i Hi; specialize (Hl i Hi); lia. }
              assert (p <> pos). { intros ->. apply Hne. eapply Hs; eauto. }
              eapply pos_ok_change; eauto.
              assert (E1 : nth_error (base ++ w ++ [n]) p = Some (c_node c)).
              { destruct fs; simpl in Hx; tauto. }
              rewrite nth_error_app1 in E1 |- * by lia. auto.
        -- repeat split; auto. { intros i Hi; specialize (Hl i Hi); lia. }
           eapply pos_ok_cur_only; eauto.
      * repeat split; auto. intros i Hi; specialize (Hl i Hi); lia.
  - intros k1 k2 l p E1 E2. rewrite nth_error_map in E1, E2.
    assert (G : forall m, option_map (swallow (level fs) pos) m = Some (MAt l p) ->
                m = Some (MAt l p)).
    { intros [[l' p'|l']|]; simpl; try discriminate.
      destruct (opt_nat_eqb l' (level fs) && Nat.ltb pos p'); congruence. }
    apply G in E1, E2. eauto.
  - intros j Ej. exfalso. rewrite nth_error_map in Ej.
    rewrite !app_length in Ej. simpl in Ej.
    destruct (nth_error marks j) as [[l p|l]|]; simpl in Ej; try discriminate.
    destruct (opt_nat_eqb_spec l (level fs)) as [->|Hl']; simpl in Ej.
    + destruct (Nat.ltb_spec pos p); [discriminate|]. injection Ej as Ej. lia.
    + congruence.
Qed.

(** A checkpoint was taken: memo hit. *)
Lemma marks_hit h a c env marks fs kids n :
  marks_inv h (Some a) env marks fs (kids ++ [n]) n ->
  nth_error h a = Some c -> c_node c = n -> c_parent c = level fs ->
  NoDup (open_ids fs) -> (forall i, level fs = Some i -> i < n) ->
  marks_inv h (Some a) (env ++ [a]) (marks ++ [MAt (level fs) (length kids)]) fs (kids ++ [n]) n.
Proof.
  intros [H1 H2 H3] Hc Hn Hp Ho Hlv.
  assert (Hlen : length env = length marks) by (eapply Forall2_length; eauto).
  assert (Epred : pred (length (kids ++ [n])) = length kids).
  { rewrite app_length; simpl; lia. }
  constructor.
  - apply Forall2_app; auto. constructor; [|constructor].
    exists c. repeat split; auto. subst n.
    assert (E : nth_error (kids ++ [c_node c]) (length kids) = Some (c_node c)).
    { rewrite nth_error_app2, Nat.sub_diag by lia; auto. }
    destruct fs; simpl; split; auto.
    inversion Ho; subst. apply pos_ok_not_open; auto.
  - intros k1 k2 l p E1 E2.
    assert (G : forall k, nth_error (marks ++ [MAt (level fs) (length kids)]) k = Some (MAt l p) ->
       (nth_error marks k = Some (MAt l p) /\ nth_error (env ++ [a]) k = nth_error env k)
       \/ (l = level fs /\ p = length kids /\ nth_error (env ++ [a]) k = Some a)).
    { intros k E. destruct (Nat.lt_ge_cases k (length marks)).
      - left. rewrite nth_error_app1 in E by auto. rewrite nth_error_app1 by lia. auto.
      - rewrite nth_error_app2 in E by auto. destruct (k - length marks) eqn:Ek.
        + simpl in E. injection E as <- <-. right. repeat split.
          rewrite nth_error_app2 by lia. rewrite Hlen, Ek. auto.
        + simpl in E. destruct n0; discriminate. }
    destruct (G _ E1) as [[F1 G1]|(-> & -> & G1)], (G _ E2) as [[F2 G2]|(El & Ep & G2)];
      rewrite G1, G2; eauto.
    + subst. symmetry. apply H3. rewrite Epred. auto.
    + apply H3. rewrite Epred. auto.
  - intros k E. destruct (Nat.lt_ge_cases k (length marks)).
    + rewrite nth_error_app1 in E by auto. rewrite nth_error_app1 by lia. auto.
    + assert (k = length marks) as ->.
      { assert (k < length (marks ++ [MAt (level fs) (length kids)]))
          by (apply nth_error_Some; congruence).
        rewrite app_length in H0; simpl in H0; lia. }
      rewrite nth_error_app2 by lia. rewrite Hlen, Nat.sub_diag. auto.
Qed.

(** .. or a fresh cell. *)
Lemma marks_fresh h memo env marks fs kids n :
  marks_inv h memo env marks fs (kids ++ [n]) n ->
  (forall a c, memo = Some a -> nth_error h a = Some c ->
     c_node c = n -> c_parent c = level fs -> False) ->
  NoDup (open_ids fs) -> (forall i, level fs = Some i -> i < n) ->
  marks_inv (h ++ [Cell n (level fs)]) (Some (length h)) (env ++ [length h])
    (marks ++ [MAt (level fs) (length kids)]) fs (kids ++ [n]) n.
Proof.
  intros [H1 H2 H3] Hm Ho Hlv.
  assert (Hlen : length env = length marks) by (eapply Forall2_length; eauto).
  assert (Epred : pred (length (kids ++ [n])) = length kids).
  { rewrite app_length; simpl; lia. }
  assert (En : nth_error (kids ++ [n]) (length kids) = Some n).
  { rewrite nth_error_app2, Nat.sub_diag by lia; auto. }
  assert (Hno : forall k, nth_error marks k <> Some (MAt (level fs) (length kids))).
  { intros k E. destruct (Forall2_nth _ _ _ _ _ H1 E) as (a & Ha & c & Hc & Hp & _ & Hx).
    eapply Hm; eauto.
    - rewrite (H3 k), Ha; auto. rewrite Epred; auto.
    - destruct fs; simpl in Hx; destruct Hx as [Hx _]; specialize (Hx eq_refl); congruence. }
  constructor.
  - apply Forall2_app.
    + eapply Forall2_impl; [|apply H1]. intros x m (c & Hc & Hx).
      exists c. split; auto. rewrite nth_error_app1; auto.
      apply nth_error_Some; congruence.
    + constructor; [|constructor]. exists (Cell n (level fs)).
      rewrite nth_error_app2, Nat.sub_diag by lia. simpl. repeat split; auto.
      destruct fs; simpl; split; auto.
      inversion Ho; subst. apply pos_ok_not_open; auto.
  - assert (G : forall l p k, nth_error (marks ++ [MAt (level fs) (length kids)]) k = Some (MAt l p) ->
       (nth_error marks k = Some (MAt l p) /\ nth_error (env ++ [length h]) k = nth_error env k)
       \/ (l = level fs /\ p = length kids /\ nth_error (env ++ [length h]) k = Some (length h))).
    { intros l p k E. destruct (Nat.lt_ge_cases k (length marks)).
      - left. rewrite nth_error_app1 in E by auto. rewrite nth_error_app1 by lia. auto.
      - rewrite nth_error_app2 in E by auto. destruct (k - length marks) eqn:Ek.
        + simpl in E. injection E as <- <-. right. repeat split.
          rewrite nth_error_app2 by lia. rewrite Hlen, Ek. auto.
        + simpl in E. destruct n0; discriminate. }
    intros k1 k2 l p E1 E2.
    destruct (G _ _ _ E1) as [[F1 G1]|(-> & -> & G1)], (G _ _ _ E2) as [[F2 G2]|(El & Ep & G2)];
      rewrite G1, G2; eauto; subst; exfalso; eapply Hno; eauto.
  - rewrite Epred. intros k E. destruct (Nat.lt_ge_cases k (length marks)).
    + rewrite nth_error_app1 in E by auto. exfalso; eapply Hno; eauto.
    + assert (k = length marks) as ->.
      { assert (k < length (marks ++ [MAt (level fs) (length kids)]))
          by (apply nth_error_Some; congruence).
        rewrite app_length in H0; simpl in H0; lia. }
      rewrite nth_error_app2 by lia. rewrite Hlen, Nat.sub_diag. auto.
Qed.

End Marks.
