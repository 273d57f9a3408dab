(** Facts about single calls, on any state. *)
From Coq Require Import Lia.
From Verif Require Import Base Pointer Index Tree Builder Hist Node Spec Rep Refine AllHist.

Section StepFacts.
Context {T : Type}.
Variable F : flavor.
Implicit Types (w : world T) (b : builder T) (t : tree T) (ns : list (links T)).

(** ** Values *)
Definition datas ns : list T := map l_data ns.
Definition b_datas b := datas (t_nodes (b_tree b)).
Definition w_datas w := b_datas (w_builder w).

Lemma datas_upd ns i f : (forall l, l_data (f l) = l_data l) -> datas (upd ns i f) = datas ns.
Proof.
  intros H. unfold datas. revert i; induction ns as [|x ns IH]; intros [|i]; simpl; auto.
  - rewrite H. auto.
  - rewrite IH. auto.
Qed.

Lemma restructure_datas fuel p x : forall ns, datas (fst (restructure fuel p x ns)) = datas ns.
Proof.
  revert x. induction fuel as [|fuel IH]; intros x ns; simpl; auto.
  destruct (nth_error ns x) as [l|]; simpl; auto. destruct (l_next l); simpl.
  - rewrite IH. apply datas_upd. auto.
  - apply datas_upd. auto.
Qed.

Lemma pointer_new_full n : pointer_new F n = if N.leb (int_max F (fl_width F)) (N.of_nat n) then None else Some n.
Proof. apply pointer_new_spec. Qed.

Definition is_full b : bool := N.leb (int_max F (fl_width F)) (N.of_nat (tree_len (b_tree b))).

(** [insert] in full: refused and unchanged, or done, or the storage failed. *)
Lemma insert_datas b d sp :
  (is_full b = true /\ insert F d sp b = (b, Err Overflow)) \/
  (is_full b = false /\ exists b', insert F d sp b = (b', Ok (tree_len (b_tree b))) /\
     (fl_storage F <> SEmptyVec -> b_datas b' = b_datas b ++ [d]) /\
     (fl_storage F = SEmptyVec -> b_datas b' = b_datas b) /\
     b_cursor b' = b_cursor b /\ t_span (b_tree b') = t_span (b_tree b) /\ b_parent b' = b_parent b) \/
  (is_full b = false /\ exists b', insert F d sp b = (b', Err FlavorError) /\
     (exists cap, fl_storage F = SBounded cap) /\ b_tree b' = b_tree b /\ b_cursor b' = b_cursor b).
Proof.
  unfold insert, is_full. rewrite pointer_new_full. destruct (_ <=? _)%N; [left; auto|right].
  unfold tree_push. cbn [b_tree set_b_sibling b_parent].
  assert (G : forall ns t, t_nodes t = ns -> datas (t_nodes (
     match b_sibling b with
     | Some id => tree_upd id (set_l_next (Some (tree_len (b_tree b))))
        (match b_parent b with
        | Some id => tree_upd id (fun l =>
            let l := match l_first l with
                     | None => set_l_first (Some (tree_len (b_tree b))) l
                     | Some _ => l
                     end in
            let l := set_l_last (Some (tree_len (b_tree b))) l in
            set_l_span (set_end (l_span l) (s_end sp)) l) t
        | None => set_t_last (Some (tree_len (b_tree b))) (match t_first t with
                   | None => set_t_first (Some (tree_len (b_tree b))) t
                   | Some _ => t
                   end) end)
     | None =>
        (match b_parent b with
        | Some id => tree_upd id (fun l =>
            let l := match l_first l with
                     | None => set_l_first (Some (tree_len (b_tree b))) l
                     | Some _ => l
                     end in
            let l := set_l_last (Some (tree_len (b_tree b))) l in
            set_l_span (set_end (l_span l) (s_end sp)) l) t
        | None => set_t_last (Some (tree_len (b_tree b))) (match t_first t with
                   | None => set_t_first (Some (tree_len (b_tree b))) t
                   | Some _ => t
                   end) end) end)) = datas ns).
  { intros ns t <-. destruct (b_sibling b), (b_parent b); simpl; rewrite ?datas_upd; auto;
      try (intros l; destruct (l_first l); reflexivity); destruct (t_first t); simpl; rewrite ?datas_upd; auto. }
  destruct (storage_push (fl_storage F) (t_nodes (b_tree b)) _) as [ns|] eqn:Ep.
  - left. split; auto. cbn [option_map]. eexists. split; [reflexivity|]. unfold b_datas. cbn [b_tree set_b_tree].
    assert (Hns : (fl_storage F <> SEmptyVec -> datas ns = datas (t_nodes (b_tree b)) ++ [d]) /\
                  (fl_storage F = SEmptyVec -> datas ns = datas (t_nodes (b_tree b)))).
    { unfold storage_push in Ep. destruct (fl_storage F); [..|destruct (Nat.ltb _ _); [|discriminate]];
        injection Ep as <-; split; try congruence; intros _; unfold datas; rewrite ?map_app; auto. }
    destruct Hns as [N1 N2]. split; [|split; [|split; [reflexivity|split; [|reflexivity]]]].
    + intros Hf. cbv zeta. rewrite (G ns); auto.
    + intros Hf. cbv zeta. rewrite (G ns); auto.
    + cbv zeta. destruct (b_sibling b), (b_parent b); simpl; auto; destruct (t_first (b_tree b)); auto.
  - right. split; auto. cbn [option_map]. eexists. split; [reflexivity|].
    unfold storage_push in Ep. destruct (fl_storage F) as [| |k]; try discriminate. simpl. eauto.
Qed.

Hypothesis HF : vec_flavor F.
Lemma vec_ne : fl_storage F <> SEmptyVec.
Proof. rewrite (proj1 HF). discriminate. Qed.

Lemma insert_vec b d sp :
  (is_full b = true /\ insert F d sp b = (b, Err Overflow)) \/
  (is_full b = false /\ exists b', insert F d sp b = (b', Ok (tree_len (b_tree b))) /\ b_datas b' = b_datas b ++ [d]).
Proof.
  destruct (insert_datas b d sp) as [H|[(H & b' & E & D & _)|(H & b' & _ & (c & Ec) & _)]]; auto.
  - right. split; auto. exists b'. split; auto. apply D, vec_ne.
  - rewrite (proj1 HF) in Ec. discriminate.
Qed.

Definition grows (D : list T) (D' : list T) (v : option T) (r : out) : Prop :=
  match r with
  | RNode id => id = length D /\ exists d, v = Some d /\ D' = D ++ [d]
  | _ => D' = D
  end.

Lemma len_datas b : length (b_datas b) = tree_len (b_tree b).
Proof. apply map_length. Qed.

Lemma push_index_datas t ix i : exists t', tree_push_index F ix i t = Some t' /\ datas (t_nodes t') = datas (t_nodes t).
Proof.
  destruct (push_index_cases F HF t ix i) as (t' & E & E1 & _). exists t'. split; auto. rewrite E1. auto.
Qed.

Lemma token_grows b d len : grows (b_datas b) (b_datas (fst (token F d len b))) (Some d) (out_node (snd (token F d len b))).
Proof.
  unfold token.
  assert (G : forall sp b0, b_datas b0 = b_datas b ->
    let r := (match insert F d sp b0 with
    | (b, Ok id) =>
      let b := set_b_sibling (Some id) b in
      if len_is_empty F len then (b, Ok id)
      else
        match tree_push_index F (b_cursor b) id (b_tree b) with
        | None => (b, Err FlavorError)
        | Some t => (set_b_tree t b, Ok id)
        end
    | r => r
    end) in grows (b_datas b) (b_datas (fst r)) (Some d) (out_node (snd r))).
  { intros sp b0 H0. destruct (insert_vec b0 d sp) as [[_ ->]|(_ & b' & -> & D)]; [simpl; auto|].
    assert (Hid : tree_len (b_tree b0) = length (b_datas b)) by (rewrite <- H0, len_datas; auto).
    cbv zeta. destruct (len_is_empty F len).
    - simpl. split; auto. exists d. split; auto. unfold b_datas in *. simpl. congruence.
    - cbn [b_tree set_b_sibling].
      destruct (push_index_datas (b_tree b') (b_cursor (set_b_sibling (Some (tree_len (b_tree b0))) b')) (tree_len (b_tree b0))) as (t' & -> & D').
      simpl. split; auto. exists d. split; auto. unfold b_datas in *. simpl. congruence. }
  cbv zeta in G. cbv zeta. destruct (len_is_empty F len) eqn:El.
  - apply G. auto.
  - destruct (ix_checked_add_len F (b_cursor b) len) as [c|]; [|simpl; auto]. apply G. auto.
Qed.

Lemma close_at_grows h b a d osp :
  let '(h', b', r) := close_at_gen F a d osp h b in
  fine_out (out_node r) -> grows (b_datas b) (b_datas b') (Some d) (out_node r).
Proof.
  unfold close_at_gen. destruct (nth_error h a) as [c|]; [|simpl; auto].
  destruct (negb _); [simpl; auto|]. rewrite pointer_new_full. destruct (_ <=? _)%N; [simpl; auto|].
  destruct (nth_error (t_nodes (b_tree b)) (c_node c)) as [l|].
  - set (n := tree_len (b_tree b)). set (id := c_node c). cbv zeta.
    set (t0 := tree_upd id (fun l => set_l_prev None (set_l_parent (Some n) l)) (b_tree b)).
    assert (D0 : datas (t_nodes t0) = b_datas b) by (unfold t0, b_datas; simpl; apply datas_upd; auto).
    assert (DR : datas (fst (match l_next l with
          | Some next => restructure (S (tree_len t0)) n next (t_nodes t0)
          | None => (t_nodes t0, Ok (id, s_end (l_span l))) end)) = b_datas b).
    { destruct (l_next l); simpl; auto. rewrite <- D0. apply (restructure_datas (S (tree_len t0))). }
    destruct (match l_next l with
          | Some next => restructure (S (tree_len t0)) n next (t_nodes t0)
          | None => (t_nodes t0, Ok (id, s_end (l_span l))) end) as [m r].
    cbn [fst] in DR. destruct r as [[last e]|e|]; [|simpl; destruct e; simpl; tauto|simpl; tauto].
    unfold tree_push. rewrite (proj1 HF). cbn [storage_push option_map]. intros _.
    simpl out_node. unfold grows. split; [unfold n; rewrite len_datas; auto|]. exists d. split; auto.
    unfold b_datas. cbn [b_tree set_b_tree set_b_sibling t_nodes set_t_nodes]. unfold datas at 1. rewrite map_app. f_equal.
    change (datas (t_nodes (b_tree b))) with (b_datas b). rewrite <- DR.
    destruct (l_parent l) as [par|], (l_prev l) as [prev|]; cbn [t_first tree_upd set_t_nodes];
        destruct (opt_nat_eqb (t_first t0) (Some id)); cbn [t_nodes set_t_first set_t_nodes tree_upd];
        fold (@datas); rewrite ?datas_upd; auto;
        intros l0; destruct (opt_nat_eqb (l_first l0) (Some id)); cbn [l_last set_l_first];
          destruct (opt_nat_eqb _ (Some id)); reflexivity.
  - destruct (insert_vec b d (match osp with Some sp => sp | None => span_point (b_cursor b) end)) as [[_ ->]|(_ & b' & -> & D)]; [simpl; auto|].
    destruct (Nat.eqb _ _); simpl; [|tauto]. intros _. split; [rewrite len_datas; auto|]. exists d. split; auto.
Qed.

Lemma step_grows w o : fine_out (snd (step F w o)) ->
  grows (w_datas w) (w_datas (fst (step F w o))) (op_value o) (snd (step F w o)).
Proof.
  destruct w as [h b env]. destruct o; simpl.
  - unfold open. destruct (insert_vec b d (span_point (b_cursor b))) as [[_ ->]|(_ & b' & -> & D)]; simpl; auto.
    intros _. split; [unfold w_datas; simpl; rewrite len_datas; auto|]. exists d. split; auto.
  - unfold open_with. destruct (insert_vec b d sp) as [[_ ->]|(_ & b' & -> & D)]; simpl; auto.
    intros _. split; [unfold w_datas; simpl; rewrite len_datas; auto|]. exists d. split; auto.
  - intros _. unfold close. destruct (b_parent b) as [head|]; [|reflexivity]. cbv zeta. cbn [b_tree set_b_parent set_b_sibling].
    destruct (nth_error _ head) as [l|]; [|reflexivity]. destruct (l_parent l) as [p|]; [|reflexivity].
    destruct (nth_error _ p); [|reflexivity]. simpl. unfold w_datas, b_datas. simpl. apply datas_upd. auto.
  - intros _. pose proof (token_grows b d len) as G. destruct (token F d len b) as [b' r]. exact G.
  - intros _. pose proof (token_grows b d len_EMPTY) as G. unfold token_empty. destruct (token F d len_EMPTY b) as [b' r]. exact G.
  - intros _. unfold token_with. destruct (insert_vec b d sp) as [[_ ->]|(_ & b' & -> & D)]; [simpl; auto|].
    cbv zeta. cbn [b_tree set_b_sibling].
    destruct (push_index_datas (b_tree b') (s_start sp) (tree_len (b_tree b))) as (t' & -> & D').
    simpl. split; [unfold w_datas; simpl; rewrite len_datas; auto|]. exists d. split; auto.
    unfold w_datas, b_datas in *. simpl. destruct (b_parent b'); simpl; rewrite ?datas_upd; auto; congruence.
  - unfold checkpoint. intros _. destruct (pointer_new F _); [|reflexivity].
    destruct (b_checkpoint b) as [a|]; [|reflexivity]. destruct (nth_error h a); [|reflexivity]. destruct (_ && _); reflexivity.
  - destruct (nth_error env k) as [a|]; [|reflexivity]. unfold close_at.
    pose proof (close_at_grows h b a d None) as G. destruct (close_at_gen F a d None h b) as [[h' b'] r]. exact G.
  - destruct (nth_error env k) as [a|]; [|reflexivity]. unfold close_at_with.
    pose proof (close_at_grows h b a d (Some sp)) as G. destruct (close_at_gen F a d (Some sp) h b) as [[h' b'] r]. exact G.
  - reflexivity.
Qed.

Definition is_node (r : out) : bool := match r with RNode _ => true | _ => false end.

Lemma run_app w ops1 ops2 : run F w (ops1 ++ ops2) =
  let '(w1, r1) := run F w ops1 in let '(w2, r2) := run F w1 ops2 in (w2, r1 ++ r2).
Proof.
  revert w; induction ops1 as [|o ops1 IH]; intros w; simpl.
  - destruct (run F w ops2); auto.
  - destruct (step F w o) as [w1 r1]. rewrite IH. destruct (run F w1 ops1) as [w2 r2].
    destruct (run F w2 ops2) as [w3 r3]. auto.
Qed.

Lemma run_datas ops : forall w, wok w ->
  exists D, w_datas (fst (run F w ops)) = w_datas w ++ D /\
    length D = length (filter is_node (snd (run F w ops))).
Proof.
  induction ops as [|o ops IH]; intros w Hw; simpl; [exists []; rewrite app_nil_r; auto|].
  destruct (step_ok F HF w o Hw) as [Hw1 Hf]. pose proof (step_grows w o Hf) as G.
  destruct (step F w o) as [w1 r1]. simpl in *. destruct (IH w1 Hw1) as (D & E & L).
  destruct (run F w1 ops) as [w2 rs]. simpl in *. rewrite E.
  destruct r1; simpl in *; try (exists D; rewrite G; auto).
  destruct G as (_ & d & _ & G). exists (d :: D). rewrite G, <- app_assoc. simpl. auto.
Qed.
End StepFacts.
