(** The invariant of AllHist for builders whose checkpoints come from anywhere. *)
From Coq Require Import Lia.
From Verif Require Import Base Pointer Index Tree Builder Hist Mix Node Iter Query Spec Rep Refine Bounds
  AllHist AllWalk StepFacts Sim PropsSafe.

Section AllMix.
Context {T : Type}.
Variable F : flavor.
Hypothesis HF : vec_flavor F.
Implicit Types (b : builder T) (h : heap) (c : cell).

(** What every cell satisfies, whichever builder it was made by. *)
Definition wcell c : Prop := forall p, c_parent c = Some p -> p < c_node c.

(** All such cells a builder with [n] nodes could have made. *)
Definition universe (n : nat) : heap :=
  flat_map (fun i => Cell i None :: map (fun p => Cell i (Some p)) (seq 0 i)) (seq 0 (S n)).

Lemma universe_in n c : In c (universe n) <-> c_node c <= n /\ wcell c.
Proof.
  unfold universe. rewrite in_flat_map. split.
  - intros (i & Hi & Hc). apply in_seq in Hi. destruct Hc as [<-|Hc].
    + split; [simpl; lia|]. intros p; discriminate.
    + apply in_map_iff in Hc. destruct Hc as (p & <- & Hp). apply in_seq in Hp. split; [simpl; lia|].
      intros q Hq. injection Hq as <-. simpl. lia.
  - intros [Hn Hw]. exists (c_node c). split; [apply in_seq; lia|]. destruct c as [i [p|]]; simpl in *; auto.
    right. apply in_map_iff. exists p. split; auto. apply in_seq. specialize (Hw p eq_refl). simpl in Hw. lia.
Qed.

(** The invariant of one builder: it holds with every checkpoint it could have made. *)
Definition sound b : Prop := ok (universe (tree_len (b_tree b))) b.

Lemma ok_sub h h' b : ok h b -> (forall c, In c h' -> In c h) -> ok h' b.
Proof.
  intros (lo & hi & cap & stk & HB & HC) H. exists lo, hi, cap, stk. split; auto.
  intros a c Ec. apply nth_error_In in Ec. apply H in Ec. apply In_nth_error in Ec. destruct Ec as [a' Ea']. eauto.
Qed.

Lemma sound_intro n b : ok (universe n) b -> n <= tree_len (b_tree b) <= S n -> sound b.
Proof.
  intros (lo & hi & cap & stk & HB & HC) Hn. exists lo, hi, cap, stk. split; auto.
  intros a c Ec. apply nth_error_In in Ec. apply universe_in in Ec. destruct Ec as [Ec Hw].
  destruct (Nat.le_gt_cases (c_node c) n) as [Hle|Hgt].
  - assert (Hin : In c (universe n)) by (apply universe_in; auto). apply In_nth_error in Hin. destruct Hin as [a' Ea']. eauto.
  - split; [auto|]. intros p Hp. split; [auto|]. intros; exfalso; lia.
Qed.

Lemma sound_new : sound builder_new.
Proof.
  apply (sound_intro 0); [|split; cbv; auto]. destruct (@wok_new T) as [(lo & hi & cap & stk & HB & _) _].
  exists lo, hi, cap, stk. split; auto. intros a c Ec. apply nth_error_In in Ec. apply universe_in in Ec.
  split; [apply Ec|]. intros p Hp. apply Ec in Hp. split; auto. intros G; exfalso; unfold tree_len in G; simpl in G; lia.
Qed.

Lemma sound_ext b b' : sound b -> same_ptrs (t_nodes (b_tree b)) (t_nodes (b_tree b')) ->
  t_first (b_tree b') = t_first (b_tree b) -> t_last (b_tree b') = t_last (b_tree b) ->
  b_parent b' = b_parent b -> b_sibling b' = b_sibling b -> sound b'.
Proof. intros H HS. intros. unfold sound, tree_len. rewrite (proj1 HS). eapply ok_ext; eauto. Qed.

Lemma sound_clone b : sound b -> sound (builder_clone b).
Proof. intros H. eapply sound_ext; [exact H|..]; simpl; auto. apply same_ptrs_refl. Qed.

(** Errors that may come out of a call. *)
Definition mild (r : out) : Prop := match r with RDiverge | RErr FlavorError | RErr BuildError => False | _ => True end.

(** The room a call needs to add a node. *)
Definition small b : Prop := (N.of_nat (tree_len (b_tree b)) <= int_max F (fl_width F))%N.

Lemma small_grow b b' : is_full F b = false -> tree_len (b_tree b') <= S (tree_len (b_tree b)) -> small b'.
Proof. unfold is_full, small. intros H Hl. apply N.leb_gt in H. lia. Qed.

(** A foreign checkpoint past the end of the builder. *)
Definition beyond b c : Prop :=
  c_parent c = b_parent b /\ is_full F b = false /\ tree_len (b_tree b) < c_node c.

(** close_at looks at one cell of the heap and replaces at most that one. *)
Lemma close_at_swap h h2 b a a2 c d osp : nth_error h a = Some c -> nth_error h2 a2 = Some c ->
  let '(h', b', r) := close_at_gen F a d osp h b in
  let '(h2', b2', r2) := close_at_gen F a2 d osp h2 b in
  b2' = b' /\ r2 = r /\
  (h' = h /\ h2' = h2 \/ exists c', h' = upd h a (fun _ => c') /\ h2' = upd h2 a2 (fun _ => c')).
Proof.
  intros Ea Ea2. unfold close_at_gen. rewrite Ea, Ea2. destruct (negb _); [auto|].
  destruct (pointer_new _ _) as [n|]; [|auto].
  destruct (nth_error (t_nodes (b_tree b)) (c_node c)) as [lid|] eqn:El.
  - cbv zeta. destruct (match l_next lid with Some _ => _ | None => _ end) as [m rr].
    destruct rr as [[last e]|e|]; [|auto..]. destruct (tree_push _ _ _) as [t|]; [|auto].
    split; [auto|]. split; [auto|]. right. eauto.
  - destruct (insert F d _ b) as [b1 [i|e|]]; [|auto..]. destruct (Nat.eqb _ _); auto.
Qed.

(** What a close_at does, whichever builder the checkpoint came from. *)
Lemma mix_close_at h b a c d osp : sound b -> small b -> nth_error h a = Some c -> wcell c ->
  let '(h', b', r) := close_at_gen F a d osp h b in
  sound b' /\ small b' /\ (h' = h \/ exists c', wcell c' /\ h' = upd h a (fun _ => c')) /\
  (beyond b c -> h' = h /\ r = Err (MissingNode (tree_len (b_tree b))) /\ insert_ok b b' /\
     insert F d (match osp with Some sp => sp | None => span_point (b_cursor b) end) b = (b', Ok (tree_len (b_tree b)))) /\
  (~ beyond b c -> fine r).
Proof.
  intros Hs Hsm Ea Hw. pose proof (ok_bounds _ _ Hs) as [Hpl Hsl].
  set (n := tree_len (b_tree b)) in *.
  destruct (Nat.le_gt_cases (c_node c) n) as [Hle|Hgt].
  - (* a position this builder has *)
    set (h2 := universe n ++ [c]). set (a2 := length (universe n)).
    assert (Ea2 : nth_error h2 a2 = Some c) by (unfold h2, a2; rewrite nth_error_app2, Nat.sub_diag by lia; auto).
    assert (Hok2 : ok h2 b).
    { eapply ok_sub; [exact Hs|]. intros c' Hc'. unfold h2 in Hc'. apply in_app_or in Hc'. destruct Hc' as [Hc'|[<-|[]]]; auto.
      apply universe_in. auto. }
    assert (Hnb : ~ beyond b c) by (intros (_ & _ & G); fold n in G; lia).
    pose proof (close_at_swap h h2 b a a2 c d osp Ea Ea2) as SW.
    pose proof (close_at_ok F HF h2 b a2 c d osp Hok2 Ea2) as HO.
    set (o := match osp with Some sp => OCloseAtWith 0 d sp | None => OCloseAt 0 d end).
    assert (St : step F (World h2 b [a2]) o = let '(h', b', r) := close_at_gen F a2 d osp h2 b in (World h' b' [a2], out_node r)).
    { unfold o. destruct osp; reflexivity. }
    pose proof (node_room T F (World h2 b [a2]) o) as NR.
    pose proof (step_len F HF (World h2 b [a2]) o) as SL. rewrite St in NR, SL. clear St.
    destruct (close_at_gen F a d osp h b) as [[h' b'] r]. destruct (close_at_gen F a2 d osp h2 b) as [[h2' b2'] r2].
    destruct SW as (-> & -> & SW). destruct HO as (HO1 & HO2 & HO3). cbn [fst snd w_builder] in NR, SL.
    specialize (SL (fine_node _ HO2)).
    assert (Huni : ok (universe n) b').
    { eapply ok_sub; [exact HO1|]. intros c' Hc'. apply In_nth_error in Hc'. destruct Hc' as [k Ek].
      assert (Hk : k < a2) by (eapply nth_lt; eauto).
      destruct SW as [[_ ->]|(c1 & _ & ->)]; unfold h2; eapply nth_error_In with (n := k).
      - rewrite nth_error_app1; auto.
      - rewrite nth_upd_other by lia. rewrite nth_error_app1; auto. }
    fold n in SL.
    split; [|split; [|split; [|split; [tauto|auto]]]].
    + apply (sound_intro n); auto. destruct r as [|[]|]; simpl in SL; lia.
    + destruct r as [i|e|]; simpl in SL.
      * eapply small_grow; [apply (NR i); reflexivity|]. fold n. lia.
      * unfold small. rewrite SL. exact Hsm.
      * unfold small. rewrite SL. exact Hsm.
    + destruct SW as [[-> _]|(c' & -> & E2)]; [left; auto|right; exists c'; split; auto].
      destruct HO1 as (lo & hi & cap & stk & _ & HC).
      destruct (HC a2 c') as [_ G]; [|intros p Hp; apply (G p Hp)].
      rewrite E2, nth_upd, Nat.eqb_refl, Ea2. reflexivity.
  - (* past the end *)
    unfold close_at_gen. rewrite Ea. destruct (opt_nat_eqb (c_parent c) (b_parent b)) eqn:Ep; cbn [negb].
    2:{ split; [auto|]. split; [auto|]. split; [auto|]. split; [|intros _; exact I].
        intros (E & _). rewrite E in Ep. unfold opt_nat_eqb in Ep. destruct (b_parent b); [rewrite Nat.eqb_refl in Ep|]; discriminate. }
    assert (Hpar : c_parent c = b_parent b).
    { unfold opt_nat_eqb in Ep. destruct (c_parent c) as [u|], (b_parent b) as [v|]; try discriminate; auto.
      destruct (Nat.eqb_spec u v); congruence. }
    rewrite pointer_new_full. fold n. destruct (is_full F b) eqn:Ef; unfold is_full in Ef; fold n in Ef; rewrite Ef.
    { split; [auto|]. split; [auto|]. split; [auto|]. split; [|intros _; exact I].
      intros (_ & E & _). unfold is_full in E. fold n in E. congruence. }
    assert (En : nth_error (t_nodes (b_tree b)) (c_node c) = None) by (apply nth_error_None; unfold n, tree_len in Hgt; lia).
    rewrite En.
    destruct (insert_cases F HF b d (match osp with Some sp => sp | None => span_point (b_cursor b) end) Hpl Hsl)
      as [E|(b' & E & HI)].
    { exfalso. destruct (insert_vec F HF b d (match osp with Some sp => sp | None => span_point (b_cursor b) end)) as [[Hf _]|(_ & b1 & E' & _)]; [|congruence].
      unfold is_full in Hf. fold n in Hf. congruence. }
    rewrite E. fold n. destruct (Nat.eqb_spec n (c_node c)) as [->|_]; [lia|].
    assert (HL : tree_len (b_tree b') = S n) by (apply HI).
    split; [|split; [|split; [auto|split]]].
    + apply (sound_intro n); [|lia]. destruct Hs as (lo & hi & cap & stk & HB & HC).
      destruct (insert_inv _ _ _ _ _ _ _ HB HI HC) as (lo' & hi' & cap' & HB' & _ & _ & HC'). exists lo', hi', cap', stk. auto.
    + eapply small_grow; [unfold is_full; fold n; exact Ef|]. fold n. lia.
    + auto.
    + intros Hb. exfalso. apply Hb. split; [auto|]. split; [|exact Hgt]. unfold is_full. fold n. exact Ef.
Qed.

(** The state of all builders and checkpoints. *)
Record mix_inv (m : mix T) : Prop := {
  mi_builders : forall b, In b (m_builders m) -> sound b /\ small b;
  mi_cells : forall c, In c (m_heap m) -> wcell c;
  mi_marks : forall a, In a (m_marks m) -> a < length (m_heap m);
}.

(** The cell a call to close_at reads. *)
Definition uses (m : mix T) (o : op T) : option cell :=
  match o with
  | OCloseAt k _ | OCloseAtWith k _ _ =>
      match nth_error (m_marks m) k with Some a => nth_error (m_heap m) a | None => None end
  | _ => None
  end.

Lemma mix_inv_new : mix_inv mix_new.
Proof. constructor; simpl; tauto. Qed.

Lemma in_upd {A} (l : list A) i f x : In x (upd l i f) -> In x l \/ exists y, nth_error l i = Some y /\ x = f y.
Proof.
  intros H. apply In_nth_error in H. destruct H as [j E]. rewrite nth_upd in E. destruct (Nat.eqb_spec i j) as [Hij|Hne]; [rewrite <- Hij in E|].
  - destruct (nth_error l i) as [y|] eqn:Ey; [|discriminate]. injection E as <-. eauto.
  - left. eapply nth_error_In; eauto.
Qed.

(** One call on one builder. *)
Lemma mix_call m b o : mix_inv m -> In b (m_builders m) ->
  let w := World (m_heap m) b (m_marks m) in
  let w' := fst (step F w o) in
  let r := snd (step F w o) in
  sound (w_builder w') /\ small (w_builder w') /\
  (forall c, In c (w_heap w') -> wcell c) /\ (forall a, In a (w_env w') -> a < length (w_heap w')) /\
  (forall c, uses m o = Some c -> beyond b c ->
     r = RErr (MissingNode (tree_len (b_tree b))) /\ insert_ok b (w_builder w') /\ w_heap w' = m_heap m /\ w_env w' = m_marks m /\
     exists d, op_value o = Some d /\ b_datas (w_builder w') = b_datas b ++ [d]) /\
  ((forall c, uses m o = Some c -> ~ beyond b c) -> fine_out r).
Proof.
  intros [HB HC HM] Hb. destruct (HB b Hb) as [Hs Hsm]. cbv zeta.
  destruct (local o) eqn:Hl.
  - assert (Hwok : wok (World (universe (tree_len (b_tree b))) b [])) by (split; [exact Hs|intros a []]).
    destruct (step_ok F HF _ o Hwok) as [Hok Hf]. pose proof (step_len F HF _ o Hf) as SL.
    pose proof (node_room T F (World (universe (tree_len (b_tree b))) b []) o) as NR.
    destruct (local_step_memo F o (universe (tree_len (b_tree b))) (m_heap m) (b_checkpoint b) b [] (m_marks m) Hl) as (b1 & r & E1 & E2).
    destruct (local_shape F (World (universe (tree_len (b_tree b))) b []) o Hl) as (_ & _ & Em).
    rewrite E1 in *. cbn [fst snd w_builder w_heap w_env] in *.
    assert (Hmemo : forall b0 : builder T, set_b_checkpoint (b_checkpoint b0) b0 = b0) by (intros []; reflexivity).
    rewrite Hmemo in E2. rewrite <- Em, Hmemo in E2. rewrite E2. cbn [fst snd w_builder w_heap w_env].
    split; [|split; [|split; [auto|split; [auto|split]]]].
    + destruct Hok as [Hok _]. apply (sound_intro (tree_len (b_tree b))); [exact Hok|]. rewrite SL. destruct r; lia.
    + unfold small in *. destruct r as [|i| | | |]; try (rewrite SL; exact Hsm).
      eapply small_grow; [apply (NR i); reflexivity|]. lia.
    + intros c Hc. destruct o; discriminate.
    + auto.
  - assert (CA : forall k d osp, uses m o = (match nth_error (m_marks m) k with Some a => nth_error (m_heap m) a | None => None end) ->
      op_value o = Some d ->
      let r0 := match nth_error (m_marks m) k with None => (World (m_heap m) b (m_marks m), RNoHandle) | Some a =>
        let '(h, b, r) := close_at_gen F a d osp (m_heap m) b in (World h b (m_marks m), out_node r) end in
      sound (w_builder (fst r0)) /\ small (w_builder (fst r0)) /\
      (forall c, In c (w_heap (fst r0)) -> wcell c) /\ (forall a, In a (w_env (fst r0)) -> a < length (w_heap (fst r0))) /\
      (forall c, uses m o = Some c -> beyond b c ->
         snd r0 = RErr (MissingNode (tree_len (b_tree b))) /\ insert_ok b (w_builder (fst r0)) /\ w_heap (fst r0) = m_heap m /\ w_env (fst r0) = m_marks m /\
         exists d, op_value o = Some d /\ b_datas (w_builder (fst r0)) = b_datas b ++ [d]) /\
      ((forall c, uses m o = Some c -> ~ beyond b c) -> fine_out (snd r0))).
    { intros k d osp Hu Hv. cbv zeta. rewrite Hu. destruct (nth_error (m_marks m) k) as [a|] eqn:Ek.
      2:{ cbn [fst snd w_builder w_heap w_env]. split; [auto|]. split; [auto|]. split; [auto|]. split; [auto|]. split; [discriminate|auto]. intros; exact I. }
      destruct (nth_in (m_heap m) a) as [c Ec]; [apply HM; eapply nth_error_In; eauto|].
      assert (Hwc : wcell c) by (apply HC; eapply nth_error_In; eauto).
      pose proof (mix_close_at (m_heap m) b a c d osp Hs Hsm Ec Hwc) as G. rewrite Ec.
      destruct (close_at_gen F a d osp (m_heap m) b) as [[h' b'] r]. destruct G as (G1 & G2 & G3 & G4 & G5).
      cbn [fst snd w_builder w_heap w_env]. split; [auto|]. split; [auto|]. split; [|split; [|split]].
      - intros c0 Hc0. destruct G3 as [->|(c' & Hc' & ->)]; auto. apply in_upd in Hc0. destruct Hc0 as [Hc0|(y & _ & ->)]; auto.
      - intros a0 Ha0. apply HM in Ha0. destruct G3 as [->|(c' & Hc' & ->)]; auto. rewrite length_upd. auto.
      - intros c0 Hc0 Hbe. injection Hc0 as <-. destruct (G4 Hbe) as (-> & -> & HI & EI). split; [reflexivity|]. split; [auto|].
        split; [auto|]. split; [auto|]. exists d. split; auto.
        destruct (insert_vec F HF b d (match osp with Some sp => sp | None => span_point (b_cursor b) end)) as [[_ E']|(_ & b1 & E' & D)]; congruence.
      - intros Hn. apply fine_node. apply G5. apply Hn. auto. }
    destruct o; try discriminate Hl; simpl.
    + (* checkpoint *)
      unfold checkpoint. rewrite pointer_new_full. destruct (_ <=? _)%N.
      { cbn [fst snd w_builder w_heap w_env]. split; [auto|]. split; [auto|]. split; [auto|]. split; [auto|]. split; [discriminate|]. intros; exact I. }
      assert (G : let w := World (m_heap m ++ [Cell (tree_len (b_tree b)) (b_parent b)]) (set_b_checkpoint (Some (length (m_heap m))) b) (m_marks m ++ [length (m_heap m)]) in
        sound (w_builder w) /\ small (w_builder w) /\ (forall c, In c (w_heap w) -> wcell c) /\ (forall a, In a (w_env w) -> a < length (w_heap w))).
      { cbn [w_builder w_heap w_env]. split; [|split; [exact Hsm|split]].
        - eapply sound_ext; [exact Hs|..]; simpl; auto. apply same_ptrs_refl.
        - intros c Hc. apply in_app_or in Hc. destruct Hc as [Hc|[<-|[]]]; auto. intros p Hp. simpl in Hp.
          destruct (ok_bounds _ _ Hs) as [Hpl _]. simpl. apply (Hpl p). auto.
        - intros a Ha. rewrite app_length. simpl. apply in_app_or in Ha. destruct Ha as [Ha|[<-|[]]]; [apply HM in Ha; lia|lia]. }
      destruct G as (G1 & G2 & G3 & G4). cbn [w_builder w_heap w_env] in *.
      destruct (b_checkpoint b) as [a|]; [destruct (nth_error (m_heap m) a) as [c|] eqn:Ea; [destruct (_ && _)|]|];
        cbn [fst snd w_builder w_heap w_env];
        (split; [auto|]; split; [auto|]; split; [auto|]; split; [auto|split; [discriminate|intros; exact I]]).
      intros a0 Ha0. apply in_app_or in Ha0. destruct Ha0 as [Ha0|[<-|[]]]; auto. eapply nth_lt; eauto.
    + apply (CA k d None); auto.
    + apply (CA k d (Some sp)); auto.
Qed.

Lemma mix_step_inv m o : mix_inv m -> mix_inv (fst (mix_step F m o)).
Proof.
  intros H. pose proof H as [HB HC HM]. destruct o as [|i|i o]; simpl.
  - constructor; simpl; auto. intros b Hb. apply in_app_or in Hb. destruct Hb as [Hb|[<-|[]]]; auto.
    split; [apply sound_new|]. unfold small. simpl. lia.
  - destruct (nth_error (m_builders m) i) as [b|] eqn:Eb; [|exact H]. constructor; simpl; auto.
    intros b' Hb. apply in_app_or in Hb. destruct Hb as [Hb|[<-|[]]]; auto.
    apply nth_error_In in Eb. destruct (HB b Eb). split; [apply sound_clone; auto|auto].
  - destruct (nth_error (m_builders m) i) as [b|] eqn:Eb; [|exact H].
    pose proof (mix_call m b o H (nth_error_In _ _ Eb)) as G. cbv zeta in G.
    destruct (step F _ o) as [w r]. cbn [fst snd] in *. destruct G as (G1 & G2 & G3 & G4 & _).
    constructor; simpl; auto. intros b' Hb. apply in_upd in Hb. destruct Hb as [Hb|(y & _ & ->)]; auto.
Qed.

Lemma mix_run_inv ops : forall m, mix_inv m -> mix_inv (fst (mix_run F m ops)).
Proof.
  induction ops as [|o ops IH]; intros m H; simpl; auto. apply (mix_step_inv m o) in H.
  destruct (mix_step F m o) as [m1 r]. cbn [fst] in H. specialize (IH m1 H). destruct (mix_run F m1 ops). exact IH.
Qed.
End AllMix.
