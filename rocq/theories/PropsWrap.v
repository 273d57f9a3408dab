(** C03: closing a checkpoint against having opened the node up front. *)
From Coq Require Import Lia.
From Verif Require Import Base Pointer Index Tree Builder Hist Node Iter Spec SpecSpan SpecEq SpecMarks SpecWrap
  Rep Marks Query Refine TreeRep DocInv Layout Place PropsTree PropsEq PropsNest PropsWith Demo Local.

Section Wrap.
Context {T : Type}.
Variable F : flavor.
Implicit Types (a r l v : doc T) (o : op T) (ops : list (op T)) (fs : list (frame T)).

(** ** Room *)
Definition limited a : Prop := (N.of_nat (a_n a) <= int_max F (fl_width F))%N.
Lemma not_full_limit a n : full F a = false -> n = S (a_n a) -> (N.of_nat n <= int_max F (fl_width F))%N.
Proof. unfold full. intros H ->. apply N.leb_gt in H. lia. Qed.
Lemma limited_step a o a' x : limited a -> a_step F a o = Some (a', x) -> limited a'.
Proof.
  intros H E. assert (K : forall b : doc T, a_n b = a_n a -> limited b) by (unfold limited; intros b ->; auto).
  assert (G : forall b : doc T, full F a = false -> a_n b = S (a_n a) -> limited b) by (unfold limited; intros b Hf Hb; eapply not_full_limit; eauto).
  assert (CA : forall k d osp, a_close_at F k d osp a = Some (a', x) -> limited a').
  { intros k d osp E'. unfold a_close_at in E'. destruct (nth_error (a_marks a) k) as [m|]; [|injection E' as <- <-; auto].
    destruct (negb _); [injection E' as <- <-; auto|]. destruct (full F a) eqn:Hf; [injection E' as <- <-; auto|].
    destruct m as [lv pos|]; [|discriminate]. destruct (skipn pos (a_cur a)); injection E' as <- <-; apply G; auto. }
  assert (TK : forall d len, a_token F d len a = (a', x) -> limited a').
  { intros d len E'. unfold a_token in E'. destruct (len_is_empty F len).
    - destruct (full F a) eqn:Hf; injection E' as <- <-; auto; apply G; auto.
    - destruct (ix_checked_add_len F (a_cursor a) len); [|injection E' as <- <-; auto].
      destruct (full F a) eqn:Hf; injection E' as <- <-; auto; apply G; auto. }
  destruct o; cbn [a_step] in E; eauto; injection E as E; eauto.
  - unfold a_open_with in E. destruct (full F a) eqn:Hf; injection E as <- <-; auto; apply G; auto.
  - unfold a_open_with in E. destruct (full F a) eqn:Hf; injection E as <- <-; auto; apply G; auto.
  - unfold a_close in E. destruct (a_open a); injection E as <- <-; auto.
  - unfold a_token_with in E. destruct (full F a) eqn:Hf; injection E as <- <-; auto; apply G; auto.
  - unfold a_checkpoint in E. destruct (full F a) eqn:Hf; injection E as <- <-; auto.
  - subst. auto.
Qed.
Lemma limited_run ops : forall a a' rs, limited a -> a_run F a ops = Some (a', rs) -> limited a'.
Proof.
  induction ops as [|o ops IH]; intros a a' rs H E; simpl in E; [injection E as <- <-; auto|].
  destruct (a_step F a o) as [[a1 x]|] eqn:E1; [|discriminate].
  destruct (a_run F a1 ops) as [[a2 xs]|] eqn:E2; [|discriminate]. injection E as <- <-.
  eapply IH; [|exact E2]. eapply limited_step; eauto.
Qed.
Lemma full_le (a b : doc T) : a_n a <= a_n b -> full F a = true -> full F b = true.
Proof. unfold full. rewrite !N.leb_le. lia. Qed.

(** ** The block *)
Lemma length_touch e fs : length (touch e fs) = length fs.
Proof. destruct fs; auto. Qed.
Lemma length_widen e fs : length (widen e fs) = length fs.
Proof. destruct fs; auto. Qed.
Lemma v_depth v o v' x n ops : v_step F v o = Some (v', x) -> length (a_open v) = n -> balanced n (o :: ops) ->
  balanced (length (a_open v')) ops.
Proof.
  intros E Hn HB. assert (TK : forall d len, v_token F d len v = (v', x) -> length (a_open v') = n).
  { intros d len E'. unfold v_token in E'. destruct (len_is_empty F len); [injection E' as <- <-; simpl; rewrite length_touch; auto|].
    destruct (ix_checked_add_len _ _ _); injection E' as <- <-; simpl; rewrite ?length_touch; auto. }
  destruct o; cbn [v_step] in E; try discriminate; simpl in HB.
  - injection E as <- <-. simpl. rewrite length_touch, Hn. auto.
  - unfold a_close in E. destruct (a_open v) as [|f fs]; [discriminate|]. injection E as <- <-. simpl in *. rewrite length_widen. subst n. auto.
  - injection E as E. rewrite (TK _ _ E). auto.
  - injection E as E. rewrite (TK _ _ E). auto.
  - injection E as <- <-. simpl. rewrite Hn. auto.
  - unfold v_close_at in E. destruct (nth_error (a_marks v) k) as [m|]; [|injection E as <- <-; rewrite Hn; auto].
    destruct (negb _); [injection E as <- <-; rewrite Hn; auto|]. destruct m as [lv pos|]; [|discriminate].
    destruct (skipn pos (a_cur v)); injection E as <- <-; simpl; rewrite ?length_touch, Hn; auto.
Qed.

Lemma rename_rename (f g : nat -> nat) o : rename f (rename g o) = rename (fun k => f (g k)) o.
Proof. destruct o; auto. Qed.

Section Both.
Variables (offR offL : nat) (baseR baseL : list (rose T)) (outerR outerL : list (frame T)).
Variables (m0R m0L : list mark) (i0R i0L : list (N * nat)) (s0 : N).
Notation plugR := (plugged offR baseR outerR m0R i0R).
Notation plugL := (plugged offL baseL outerL m0L i0L).
Definition sane (off : nat) (base : list (rose T)) (outer : list (frame T)) (marks0 : list mark) : Prop :=
  (forall i, level outer = Some i -> i < off) /\
  (forall m, In m marks0 -> match m with MGone _ => True | MAt l p =>
     (l = level outer -> p <= length base) /\ (forall i, l = Some i -> i < off) end) /\
  match outer with [] => True | p :: _ => (s_start (f_span p) <= s0)%N end.
Hypothesis HR : sane offR baseR outerR m0R.
Hypothesis HL : sane offL baseL outerL m0L.
Hypothesis Hoff : offL <= offR.

Lemma both_run ops : forall v r l, plugR v r -> plugL v l -> vlaid s0 v -> balanced (length (a_open v)) ops ->
  forall r' rs, a_run F r (map (rename (named m0R)) ops) = Some (r', rs) -> ~ In (RErr Overflow) rs ->
  exists v' l' xs, a_run F l (map (rename (named m0L)) ops) = Some (l', map (rlift offL) xs) /\
    rs = map (rlift offR) xs /\ plugR v' r' /\ plugL v' l' /\ vlaid s0 v' /\ a_open v' = [].
Proof.
  induction ops as [|o ops IH]; intros v r l PR PL VL HB r' rs E HO.
  - simpl in E. injection E as <- <-. exists v, l, []. simpl in *. repeat (split; auto). destruct (a_open v); auto. discriminate.
  - cbn [map a_run] in E. destruct (a_step F r (rename (named m0R) o)) as [[r1 x]|] eqn:E1; [|discriminate].
    destruct (a_run F r1 (map (rename (named m0R)) ops)) as [[r2 xs]|] eqn:E2; [|discriminate]. injection E as <- <-.
    assert (Hx : x <> RErr Overflow) by (intros ->; apply HO; left; auto).
    assert (N1 : forall d sp, o <> OOpenWith d sp) by (intros; intros ->; exact HB).
    assert (N2 : forall d sp, o <> OTokenWith d sp) by (intros; intros ->; exact HB).
    assert (N3 : forall k d sp, o <> OCloseAtWith k d sp) by (intros; intros ->; exact HB).
    assert (N4 : forall c, o <> OSetCursor c) by (intros; intros ->; exact HB).
    assert (NC : o = OClose -> a_open v <> []) by (intros -> En; rewrite En in HB; exact HB).
    assert (QR : full F r = true -> quiet v o).
    { intros Hf. destruct HR as (A1 & A2 & A3). eapply (plug_quiet F offR baseR outerR m0R i0R); eauto. }
    assert (QL : full F l = true -> quiet v o).
    { intros Hf. apply QR. eapply full_le; [|exact Hf]. rewrite (pl_n _ _ _ _ _ _ _ PR), (pl_n _ _ _ _ _ _ _ PL). lia. }
    destruct HR as (A1 & A2 & A3). destruct HL as (B1 & B2 & B3).
    pose proof (plug_step F offR baseR outerR m0R i0R s0 A1 A2 A3 v r o PR VL QR NC N1 N2 N3 N4) as SR.
    pose proof (plug_step F offL baseL outerL m0L i0L s0 B1 B2 B3 v l o PL VL QL NC N1 N2 N3 N4) as SL.
    destruct (v_step F v o) as [[v1 y]|] eqn:Ev; [|congruence].
    destruct SR as (r1' & SR & PR1). rewrite E1 in SR. injection SR as <- ->.
    destruct SL as (l1 & SL & PL1).
    pose proof (v_depth _ _ _ _ _ _ Ev eq_refl HB) as HB1. pose proof (v_step_laid F _ _ _ _ _ VL Ev) as VL1.
    destruct (IH v1 r1 l1 PR1 PL1 VL1 HB1 _ _ E2) as (v' & l' & ys & F1 & F2 & F3 & F4 & F5 & F6).
    { intros Hi. apply HO. right. auto. }
    exists v', l', (y :: ys). cbn [map a_run]. rewrite SL, F1, F2. repeat (split; auto).
Qed.
End Both.

(** ** After the block *)
Variables (j m : nat).
Record rel r l : Prop := {
  rl_doc : same_doc r l;
  rl_len : length (a_marks l) = S (length (a_marks r));
  rl_marks : forall k, k < j \/ j + m <= k -> nth_error (a_marks l) (one_more j k) = nth_error (a_marks r) k;
  rl_old : j + m <= length (a_marks r);
}.

Lemma same_touch2 e fs gs : Forall2 same_frame fs gs -> Forall2 (@same_frame T) (touch e fs) (touch e gs).
Proof.
  intros H. destruct H as [|f g fs gs Hf H]; simpl; constructor; auto.
  destruct Hf as (A & B & C & D). split; auto. split; auto. split; auto. simpl. congruence.
Qed.
Lemma same_widen2 e fs gs : Forall2 same_frame fs gs -> Forall2 (@same_frame T) (widen e fs) (widen e gs).
Proof.
  intros H. destruct H as [|f g fs gs Hf H]; simpl; constructor; auto.
  destruct Hf as (A & B & C & D). split; auto. split; auto. split; auto. simpl. congruence.
Qed.
Lemma same_level2 fs gs : Forall2 (@same_frame T) fs gs -> level fs = level gs.
Proof. intros H. destruct H as [|f g fs gs (A & _) H]; simpl; congruence. Qed.

Lemma erase_spans (l1 l2 : list (rose T)) : map erase l1 = map erase l2 -> map r_span l1 = map r_span l2.
Proof.
  revert l2; induction l1 as [|x l1 IH]; intros [|y l2] E; try discriminate; auto. simpl in E. injection E as E1 E2.
  simpl. f_equal; auto. destruct x, y. simpl in *. congruence.
Qed.
Lemma run_span_spans (x y : rose T) (l1 : list (rose T)) : forall l2 : list (rose T), r_span x = r_span y -> map r_span l1 = map r_span l2 -> run_span x l1 = run_span y l2.
Proof.
  intros l2 Hx H. unfold run_span. f_equal; [congruence|]. revert x y l2 Hx H; induction l1 as [|x' l1 IH]; intros x y [|y' l2] Hx H; try discriminate; simpl.
  - congruence.
  - simpl in H. injection H as H1 H2. eauto.
Qed.

Lemma rel_leaf r l r' l' d sp fs gs : rel r l -> Forall2 same_frame fs gs ->
  a_cur r' = a_cur r ++ [Nd (a_n r) KLeaf d sp []] -> a_cur l' = a_cur l ++ [Nd (a_n l) KLeaf d sp []] ->
  a_open r' = fs -> a_open l' = gs -> a_n r' = S (a_n r) -> a_n l' = S (a_n l) -> a_cursor r' = a_cursor l' ->
  a_span r' = a_span l' -> a_marks r' = a_marks r -> a_marks l' = a_marks l -> rel r' l'.
Proof.
  intros [[D1 D2 D3 D4 D5] H2 H3 H4] HF E1 E2 E3 E4 E5 E6 E7 E8 E9 E10.
  constructor; rewrite ?E9, ?E10; auto. constructor; rewrite ?E1, ?E2, ?E3, ?E4, ?E5, ?E6; auto. rewrite !map_app, D1. auto.
Qed.

Lemma rel_step r l o : rel r l -> avoids j m [o] ->
  match a_step F r o with
  | None => a_step F l (rename (one_more j) o) = None
  | Some (r', x) => exists l', a_step F l (rename (one_more j) o) = Some (l', x) /\ rel r' l'
  end.
Proof.
  intros H Hav. pose proof H as [[D1 D2 D3 D4 D5] H2 H3 H4].
  assert (Hf : full F l = full F r) by (unfold full; rewrite D3; auto).
  pose proof (same_level2 _ _ D2) as Hlv.
  assert (Hlc : length (a_cur r) = length (a_cur l)) by (rewrite <- (map_length erase (a_cur r)), D1, map_length; auto).
  assert (OPEN : forall d sp, let '(r', x) := a_open_with F d sp r in exists l', a_open_with F d sp l = (l', x) /\ rel r' l').
  { intros d sp. unfold a_open_with. rewrite Hf. destruct (full F r); [exists l; auto|]. eexists. split; [rewrite <- D3; reflexivity|].
    constructor; simpl; auto. constructor; simpl; auto. constructor; [split; auto|]. apply same_touch2. auto. }
  assert (TOK : forall d len, let '(r', x) := a_token F d len r in exists l', a_token F d len l = (l', x) /\ rel r' l').
  { intros d len. unfold a_token. rewrite Hf, <- D4. destruct (len_is_empty F len).
    - destruct (full F r); [exists l; auto|]. eexists. split; [rewrite <- D3; reflexivity|].
      eapply (rel_leaf r l); try reflexivity; simpl; auto; try apply same_touch2; auto.
    - destruct (ix_checked_add_len F (a_cursor r) len) as [c|]; [|exists l; auto].
      destruct (full F r); (eexists; split; [rewrite <- ?D3; reflexivity|]).
      + constructor; simpl; auto. constructor; simpl; auto. rewrite D5. auto.
      + eapply (rel_leaf r l); try reflexivity; simpl; auto; try apply same_touch2; auto; rewrite ?D3, ?D5; auto. }
  assert (CA : forall k d osp, k < j \/ j + m <= k -> match a_close_at F k d osp r with
      | None => a_close_at F (one_more j k) d osp l = None
      | Some (r', x) => exists l', a_close_at F (one_more j k) d osp l = Some (l', x) /\ rel r' l' end).
  { intros k d osp Hk. unfold a_close_at. rewrite (H3 k Hk). destruct (nth_error (a_marks r) k) as [mk|]; [|eauto].
    rewrite <- Hlv. destruct (negb _); eauto. rewrite Hf. destruct (full F r); eauto. destruct mk as [lv pos|]; auto.
    pose proof (f_equal (skipn pos) D1) as Es. rewrite !skipn_map in Es.
    pose proof (f_equal (firstn pos) D1) as En. rewrite !firstn_map in En.
    destruct (skipn pos (a_cur r)) as [|x w], (skipn pos (a_cur l)) as [|y w']; try discriminate.
    - eexists. split; [rewrite <- D3, <- D4; reflexivity|].
      eapply (rel_leaf r l); try reflexivity; simpl; auto; try apply same_touch2; auto.
    - pose proof (erase_spans (x :: w) (y :: w') Es) as Esp. simpl in Esp. injection Esp as Ex Ew.
      rewrite (run_span_spans x y w w' Ex Ew). eexists. split; [rewrite <- D3, <- D4; reflexivity|].
      constructor; cbn [a_cur a_open a_n a_cursor a_span a_index a_marks]; rewrite ?map_length; auto.
      + constructor; simpl; auto. rewrite !map_app, En. simpl in *. injection Es as -> ->. auto.
      + intros k' Hk'. rewrite !nth_error_map, (H3 k' Hk'). auto. }
  destruct o; cbn [a_step rename].
  - specialize (OPEN d (span_point (a_cursor r))). rewrite <- D4. destruct (a_open_with F d _ r) as [r' x].
    destruct OPEN as (l' & -> & P). eauto.
  - specialize (OPEN d sp). destruct (a_open_with F d _ r) as [r' x]. destruct OPEN as (l' & -> & P). eauto.
  - unfold a_close. destruct D2 as [|f g fs gs (A & B & C & D) D2]; [eauto|]. eexists. split; [reflexivity|].
    constructor; simpl; auto. constructor; simpl; auto.
    + rewrite !map_app. simpl. rewrite D1, D, B, C. auto.
    + rewrite C. apply same_widen2. auto.
    + rewrite C. auto.
  - specialize (TOK d len). destruct (a_token F d len r) as [r' x]. destruct TOK as (l' & -> & P). eauto.
  - specialize (TOK d 0%N). destruct (a_token F d 0%N r) as [r' x]. destruct TOK as (l' & -> & P). eauto.
  - unfold a_token_with. rewrite Hf. destruct (full F r); [eauto|]. eexists. split; [rewrite <- D3; reflexivity|].
    eapply (rel_leaf r l); try reflexivity; simpl; auto. apply same_widen2, same_touch2. auto.
  - unfold a_checkpoint. rewrite Hf. destruct (full F r); [eauto|]. eexists. split; [reflexivity|].
    constructor; simpl; auto; try (constructor; auto; fail).
    + rewrite !app_length, H2. simpl. lia.
    + intros k Hk. destruct (Nat.lt_ge_cases k (length (a_marks r))) as [Hlt|Hge].
      * assert (one_more j k < length (a_marks l)) by (unfold one_more; destruct (Nat.ltb_spec k j); lia).
        rewrite !nth_error_app1 by auto. auto.
      * assert (one_more j k = S k) as Ek by (unfold one_more; destruct (Nat.ltb_spec k j); auto; lia).
        rewrite !nth_error_app2 by lia. rewrite Ek, H2, Hlv, Hlc. auto.
    + rewrite app_length. lia.
  - apply CA. apply (Hav (OCloseAt k d) k); simpl; auto.
  - apply CA. apply (Hav (OCloseAtWith k d sp) k); simpl; auto.
  - eexists. split; [reflexivity|]. constructor; simpl; auto. constructor; auto.
Qed.

Lemma rel_run ops : forall r l, rel r l -> avoids j m ops -> forall r' rs, a_run F r ops = Some (r', rs) ->
  exists l', a_run F l (map (rename (one_more j)) ops) = Some (l', rs) /\ rel r' l'.
Proof.
  induction ops as [|o ops IH]; intros r l H Hav r' rs E; simpl in E.
  - injection E as <- <-. exists l. auto.
  - destruct (a_step F r o) as [[r1 x]|] eqn:E1; [|discriminate].
    destruct (a_run F r1 ops) as [[r2 xs]|] eqn:E2; [|discriminate]. injection E as <- <-.
    pose proof (rel_step r l o H) as S1. rewrite E1 in S1. destruct S1 as (l1 & S1 & R1).
    { intros o' k [<-|[]]. apply Hav. left. auto. }
    destruct (IH r1 l1 R1) with (2 := E2) as (l2 & S2 & R2).
    { intros o' k Hin. apply Hav. right. auto. }
    exists l2. simpl. rewrite S1, S2. auto.
Qed.
End Wrap.

(** ** The theorem on documents *)
Section Main.
Context {T : Type}.
Variable F : flavor.
Implicit Types (a r l v : doc T) (o : op T) (ops : list (op T)) (fs : list (frame T)).

Lemma plug_blank off base outer m0 i0 a v : a_cur v = [] -> a_open v = [] -> a_n v = 0 -> a_index v = [] -> a_marks v = [] ->
  a_cur a = base -> a_open a = outer -> a_n a = off -> a_cursor a = a_cursor v -> a_span a = a_span v ->
  a_index a = i0 -> a_marks a = m0 -> plugged off base outer m0 i0 v a.
Proof.
  intros E1 E2 E3 E4 E5 F1 F2 F3 F4 F5 F6 F7.
  constructor; rewrite ?E1, ?E2, ?E3, ?E4, ?E5, ?F1, ?F2, ?F3, ?F6, ?F7; simpl; rewrite ?app_nil_r; auto.
  unfold around, blank. rewrite E1, E2. auto.
Qed.

Lemma map_erase_lift off (l : list (rose T)) : map erase (map (lift off) l) = map erase l.
Proof.
  rewrite map_map. apply map_ext. intros x. revert x. fix IH 1. intros [i k d sp kids]. simpl. f_equal.
  rewrite map_map. induction kids as [|y kids IHk]; simpl; auto. f_equal; auto.
Qed.
Lemma same_frames_all fs : Forall2 (@same_frame T) fs fs.
Proof. induction fs; constructor; auto. repeat split; auto. Qed.

Lemma block_names j (X : list (op T)) : since j X -> X = map (rename (fun k => j + k)) (map (rename (fun k => k - j)) X) /\
  map (rename (one_more j)) X = map (rename (fun k => S j + k)) (map (rename (fun k => k - j)) X).
Proof.
  intros H. rewrite !map_map. split.
  - rewrite <- (map_id X) at 1. apply map_ext_in. intros o Ho. destruct o; simpl; auto; f_equal;
      (assert (j <= k) by (eapply (H _ k Ho); simpl; auto)); lia.
  - apply map_ext_in. intros o Ho. destruct o; simpl; auto; f_equal;
      (assert (j <= k) by (eapply (H _ k Ho); simpl; auto)); unfold one_more; destruct (Nat.ltb_spec k j); lia.
Qed.
Lemma balanced_rename f (X : list (op T)) : forall n, balanced n X -> balanced n (map (rename f) X).
Proof.
  induction X as [|o X IH]; intros n H; auto. destruct o; simpl in *; auto. destruct n; auto.
Qed.
Lemma rlift_next off xs : map id_before (map (rlift off) xs) = map (rlift (S off)) xs.
Proof. rewrite map_map. apply map_ext. intros r; destruct r; auto. Qed.

Lemma wrap_block (a0 : doc T) d (X : list (op T)) (b : doc T) rx :
  doc_ok a0 -> limited F a0 -> starts_before a0 -> let j := length (a_marks a0) in
  balanced 0 X -> since j X -> full F a0 = false ->
  a_run F (fst (a_open_with F d (span_point (a_cursor a0)) a0)) X = Some (b, rx) -> ~ In (RErr Overflow) rx ->
  exists l1 rx' l2, a_run F (fst (a_checkpoint F a0)) (map (rename (one_more j)) X) = Some (l1, rx') /\
    rx = map id_before rx' /\ length (a_marks b) = j + obtained rx /\
    a_step F l1 (OCloseAt j d) = Some (l2, RNode (a_n l1)) /\ S (a_n l1) = a_n b /\
    snd (a_close b) = RUnit /\ rel j (obtained rx) (fst (a_close b)) l2.
Proof.
  intros Hok Hlim Hst j HB Hs Hfull E HO.
  assert (Hm : length (a_marks b) = j + obtained rx).
  { pose proof (a_marks_obtained F X _ _ _ E) as G. rewrite G. unfold a_open_with. rewrite Hfull. auto. }
  unfold a_open_with, a_checkpoint in *. rewrite Hfull in *. cbn [fst snd] in *.
  set (r0 := Doc [] _ _ _ _ _ _) in E. set (l0 := Doc _ _ _ _ _ _ _).
  set (v0 := Doc (@nil (rose T)) [] 0 (a_cursor a0) (a_span a0) [] []).
  set (outerR := a_open r0) in *. set (mL := a_marks l0).
  destruct Hok as [K1 K2 K3].
  assert (Hold : forall i, level (a_open a0) = Some i -> i < a_n a0) by (intros i; apply stacked_level; auto).
  assert (SR : sane (a_cursor a0) (S (a_n a0)) (@nil (rose T)) outerR (a_marks a0)).
  { split; [|split].
    - simpl. intros i Ei. injection Ei as <-. lia.
    - intros mk Hmk. destruct mk as [lv p|]; auto. apply In_nth_error in Hmk as [k Hk]. split.
      + intros ->. simpl in Hk. pose proof (K2 k _ (a_n a0) Hk eq_refl). lia.
      + intros i ->. pose proof (K2 k _ i Hk eq_refl). lia.
    - simpl. lia. }
  assert (SL : sane (a_cursor a0) (a_n a0) (a_cur a0) (a_open a0) mL).
  { split; [|split].
    - auto.
    - intros mk Hmk. unfold mL in Hmk. simpl in Hmk. apply in_app_iff in Hmk as [Hmk|[<-|[]]].
      + destruct mk as [lv p|]; auto. pose proof (K3 _ Hmk) as Hw. apply In_nth_error in Hmk as [k Hk]. split.
        * intros ->. destruct (a_open a0); simpl in Hw; destruct Hw as [Hw _]; auto.
        * intros i ->. apply (K2 k _ i Hk eq_refl).
      + split; auto.
    - exact Hst. }
  pose proof (block_names j X Hs) as [EX EX'].
  set (Xv := map (rename (fun k => k - j)) X) in *.
  assert (PR : plugged (S (a_n a0)) [] outerR (a_marks a0) (a_index a0) v0 r0) by (apply plug_blank; auto).
  assert (PL : plugged (a_n a0) (a_cur a0) (a_open a0) mL (a_index a0) v0 l0) by (apply plug_blank; auto).
  assert (VL : vlaid (a_cursor a0) v0) by (exists (a_cursor a0); split; [constructor|reflexivity]).
  assert (HBv : balanced 0 Xv) by (apply balanced_rename; auto).
  rewrite EX in E. clear EX. clearbody Xv.
  destruct (both_run F _ _ _ _ _ _ _ _ _ _ _ SR SL (Nat.le_succ_diag_r _) Xv v0 r0 l0 PR PL VL HBv b rx E HO)
    as (v & l1 & xs & F1 & F2 & QR & QL & VL' & Ov).
  assert (Enm : named mL = fun k => S j + k).
  { unfold named, mL. simpl. rewrite app_length. simpl. fold j. rewrite Nat.add_comm. auto. }
  rewrite Enm in F1. rewrite <- EX' in F1.
  exists l1, (map (rlift (a_n a0)) xs). rewrite F1, F2, rlift_next.
  assert (Hlimb : limited F b).
  { eapply limited_run; [|exact E]. unfold limited, r0. cbn [a_n]. exact (not_full_limit F a0 _ Hfull eq_refl). }
  pose proof (pl_n _ _ _ _ _ _ _ QR) as NR. pose proof (pl_n _ _ _ _ _ _ _ QL) as NL.
  assert (Hfl : full F l1 = false).
  { unfold limited in Hlimb. unfold full. apply N.leb_gt. rewrite NL. rewrite NR in Hlimb. lia. }
  destruct VL' as (s & V1 & V2). rewrite Ov in V2. simpl in V2. subst s.
  pose proof (laid_list_le _ _ _ V1) as Hle.
  assert (OR : a_open b = touch (a_cursor v) outerR).
  { rewrite (pl_open _ _ _ _ _ _ _ QR), Ov. simpl. unfold around, blank. rewrite Ov. simpl.
    destruct (a_cur v) as [|x w] eqn:Ec; auto. inversion V1; subst. auto. }
  assert (CR : a_cur b = map (lift (S (a_n a0))) (a_cur v)) by (rewrite (pl_cur _ _ _ _ _ _ _ QR), Ov; auto).
  assert (CL : a_cur l1 = a_cur a0 ++ map (lift (a_n a0)) (a_cur v)) by (rewrite (pl_cur _ _ _ _ _ _ _ QL), Ov; auto).
  assert (OL : a_open l1 = around (a_open a0) v) by (rewrite (pl_open _ _ _ _ _ _ _ QL), Ov; auto).
  assert (Hmj : nth_error (a_marks l1) j = Some (MAt (level (a_open a0)) (length (a_cur a0)))).
  { rewrite (pl_marks _ _ _ _ _ _ _ QL). unfold mL. simpl. rewrite nth_error_app1 by (rewrite app_length; simpl; unfold j; lia).
    unfold j. rewrite nth_error_app2, Nat.sub_diag by lia. auto. }
  assert (Hclose : a_close b = (Doc (a_cur a0 ++ [Nd (a_n a0) KOpen d (Span (a_cursor a0) (a_cursor v)) (a_cur b)])
      (widen (Span (a_cursor a0) (a_cursor v)) (touch (a_cursor a0) (a_open a0))) (a_n b) (a_cursor v) (a_span b) (a_index b) (a_marks b), RUnit)).
  { unfold a_close. rewrite OR. simpl. auto. }
  rewrite Hclose. cbn [fst snd].
  assert (Hw : widen (Span (a_cursor a0) (a_cursor v)) (touch (a_cursor a0) (a_open a0)) = touch (a_cursor v) (a_open a0)).
  { unfold starts_before in Hst. destruct (a_open a0) as [|p ps]; simpl; auto. f_equal. f_equal. unfold span_join, set_end. simpl. f_equal; lia. }
  assert (Hmk : forall pos, pos = length (a_cur a0) -> forall mk, In mk (a_marks a0) -> swallow (level (a_open a0)) pos mk = mk).
  { intros pos -> mk Hin. destruct SL as (_ & S2 & _). specialize (S2 mk). destruct mk as [lv p|]; simpl; auto.
    destruct (opt_nat_eqb_spec lv (level (a_open a0))) as [->|]; simpl; auto.
    destruct S2 as [S2 _]; [unfold mL; simpl; apply in_app_iff; auto|]. specialize (S2 eq_refl).
    destruct (Nat.ltb_spec (length (a_cur a0)) p); auto. lia. }
  assert (Hnth : forall f, (forall mk, In mk (a_marks a0) -> f mk = mk) -> forall k, k < j \/ j + obtained rx <= k ->
     nth_error (map f (a_marks l1)) (one_more j k) = nth_error (a_marks b) k).
  { intros f Hfm k Hk. destruct Hk as [Hk|Hk].
    - assert (one_more j k = k) as -> by (unfold one_more; destruct (Nat.ltb_spec k j); lia).
      rewrite nth_error_map, (pl_marks _ _ _ _ _ _ _ QL), (pl_marks _ _ _ _ _ _ _ QR). unfold mL. simpl. rewrite <- app_assoc.
      rewrite !nth_error_app1 by exact Hk. destruct (nth_error (a_marks a0) k) as [mk|] eqn:Em; simpl; auto.
      rewrite Hfm; auto. eapply nth_error_In; eauto.
    - assert (one_more j k = S k) as -> by (unfold one_more; destruct (Nat.ltb_spec k j); lia).
      assert (length (a_marks l1) = S (length (a_marks b))).
      { rewrite (pl_marks _ _ _ _ _ _ _ QL), (pl_marks _ _ _ _ _ _ _ QR). unfold mL. simpl. rewrite !app_length, !map_length. simpl. lia. }
      transitivity (@None mark); [|symmetry]; apply nth_error_None; rewrite ?map_length; lia. }
  assert (Hlen : length (a_marks l1) = S (length (a_marks b))).
  { rewrite (pl_marks _ _ _ _ _ _ _ QL), (pl_marks _ _ _ _ _ _ _ QR). unfold mL. simpl. rewrite !app_length, !map_length. simpl. lia. }
  assert (Hlvl : level (a_open l1) = level (a_open a0)) by (rewrite OL; apply level_around).
  assert (Hsk : skipn (length (a_cur a0)) (a_cur l1) = map (lift (a_n a0)) (a_cur v)).
  { rewrite CL, skipn_app, skipn_all, Nat.sub_diag. auto. }
  assert (Hfn : firstn (length (a_cur a0)) (a_cur l1) = a_cur a0).
  { rewrite CL, firstn_app, firstn_all, Nat.sub_diag. simpl. apply app_nil_r. }
  cbn [a_step]. unfold a_close_at. rewrite Hmj. simpl mark_level. rewrite Hlvl.
  destruct (opt_nat_eqb_spec (level (a_open a0)) (level (a_open a0))); [|congruence]. simpl negb. cbv iota. rewrite Hfl, Hsk, Hfn.
  subst rx. destruct (a_cur v) as [|x w] eqn:Ec.
  - simpl map. cbv iota. assert (Ecv : a_cursor v = a_cursor a0) by (inversion V1; auto).
    eexists. split; [reflexivity|]. split; [reflexivity|]. split; [exact Hm|]. split; [reflexivity|]. split; [lia|]. split; [reflexivity|].
    constructor; cbn [a_cur a_open a_n a_cursor a_span a_index a_marks]; auto; simpl; auto.
    + constructor; simpl; auto.
      * rewrite CL, CR. simpl. rewrite app_nil_r, !map_app. simpl. rewrite (pl_cursor _ _ _ _ _ _ _ QL), Ecv. auto.
      * rewrite Hw, OL. unfold around, blank. rewrite Ec, Ov. rewrite (pl_cursor _ _ _ _ _ _ _ QL). apply same_frames_all.
      * lia.
      * rewrite (pl_cursor _ _ _ _ _ _ _ QL). auto.
      * rewrite (pl_span _ _ _ _ _ _ _ QL), (pl_span _ _ _ _ _ _ _ QR). auto.
    + intros k Hk. rewrite <- (Hnth (fun x => x)); auto. rewrite map_id. auto.
    + lia.
  - cbn [map]. cbv iota. eexists. split; [reflexivity|]. split; [reflexivity|]. split; [exact Hm|]. split; [reflexivity|]. split; [lia|]. split; [reflexivity|].
    rewrite run_span_lift, (laid_run_span _ _ _ _ V1).
    constructor; cbn [a_cur a_open a_n a_cursor a_span a_index a_marks]; rewrite ?map_length; auto.
    + constructor; cbn [a_cur a_open a_n a_cursor a_span a_index a_marks]; auto.
      * rewrite CR, !map_app. f_equal. cbn [map erase]. f_equal. f_equal.
        change (erase (lift (S (a_n a0)) x) :: map erase (map (lift (S (a_n a0))) w)) with (map erase (map (lift (S (a_n a0))) (x :: w))).
        transitivity (map erase (map (lift (a_n a0)) (x :: w))); [|reflexivity]. rewrite !map_erase_lift. reflexivity.
      * rewrite Hw, OL. unfold around, blank. rewrite Ec, Ov. simpl. apply same_frames_all.
      * lia.
      * rewrite (pl_cursor _ _ _ _ _ _ _ QL). auto.
      * rewrite (pl_span _ _ _ _ _ _ _ QL), (pl_span _ _ _ _ _ _ _ QR). auto.
    + lia.
Qed.
End Main.

Lemma app_len_inj A (l1 l2 : list A) : forall m1 m2, l1 ++ m1 = l2 ++ m2 -> length l1 = length l2 -> l1 = l2 /\ m1 = m2.
Proof.
  revert l2; induction l1 as [|x l1 IH]; intros [|y l2] m1 m2 E L; simpl in *; try discriminate; auto.
  injection E as -> E. destruct (IH l2 m1 m2 E) as [-> ->]; auto.
Qed.

(** C03 on documents.  After any history [pre] take a block [X] of plain calls which uses only its own
    checkpoints, closes what it opens and nothing else, and in which no call runs out of room.  If the
    innermost open node does not start after the cursor (which no plain history can bring about),
    then [checkpoint; X; close_at] and [open; X; close], and any calls [suf] that follow and do not use
    the checkpoints of the block, give the same document, cursor and spans, and the same results,
    except that in the first the wrapping node gets its identifier last. *)
Theorem C03_documents_partial : forall T F (pre X suf : list (op T)) d a0 rs0 a i rx rs2,
  describes F pre a0 rs0 -> starts_before a0 ->
  let j := obtained rs0 in
  balanced 0 X -> since j X ->
  describes F (pre ++ OOpen d :: X ++ OClose :: suf) a (rs0 ++ RNode i :: rx ++ RUnit :: rs2) ->
  length rx = length X -> ~ In (RErr Overflow) rx -> avoids j (obtained rx) suf ->
  exists a' i' rx',
    describes F (pre ++ OCheckpoint :: map (rename (one_more j)) X ++ OCloseAt j d :: map (rename (one_more j)) suf)
      a' (rs0 ++ RCheckpoint :: rx' ++ RNode i' :: rs2) /\
    rx = map id_before rx' /\ same_doc a a'.
Proof.
  intros T F pre X suf d a0 rs0 a i rx rs2 D0 Hst j HB Hs D Hlen HO Hav. unfold describes in *.
  pose proof (a_marks_obtained F pre _ _ _ D0) as Hj. simpl in Hj. fold j in Hj.
  assert (Hok : doc_ok a0) by (eapply (doc_ok_run F); [apply doc_ok_new|exact D0]).
  assert (Hlim : limited F a0) by (eapply (limited_run F); [|exact D0]; unfold limited; simpl; lia).
  rewrite a_run_app, D0 in D. cbn [a_run a_step] in D.
  destruct (a_run F a0 (OOpen d :: X ++ OClose :: suf)) as [[z zs]|] eqn:EZ; [|cbn [a_run a_step] in EZ; rewrite EZ in D; discriminate].
  assert (z = a /\ zs = RNode i :: rx ++ RUnit :: rs2) as [-> ->].
  { cbn [a_run a_step] in EZ. rewrite EZ in D. injection D as -> D. apply app_inv_head in D. auto. }
  clear D. cbn [a_run a_step] in EZ. unfold a_open_with in EZ.
  destruct (full F a0) eqn:Hfull.
  { destruct (a_run F a0 (X ++ OClose :: suf)) as [[? ?]|]; discriminate. }
  set (r0 := Doc [] _ _ _ _ _ _) in EZ. rewrite a_run_app in EZ.
  destruct (a_run F r0 X) as [[b rx0]|] eqn:EX; [|discriminate]. cbn [a_run a_step] in EZ.
  destruct (a_close b) as [c rc] eqn:Ec. destruct (a_run F c suf) as [[z zs]|] eqn:Esuf; [|discriminate].
  injection EZ as -> _ EZ.
  pose proof (a_run_length F X _ _ _ EX) as L1.
  destruct (app_len_inj _ rx0 rx _ _ EZ) as [-> EZ']; [congruence|]. injection EZ' as -> ->.
  destruct (wrap_block F a0 d X b rx Hok Hlim Hst HB) as (l1 & rx' & l2 & E1 & E2 & E3 & E4 & E5 & E6 & E7); auto.
  { rewrite Hj. exact Hs. }
  { unfold a_open_with. rewrite Hfull. exact EX. }
  rewrite Hj in *. rewrite Ec in E7. cbn [fst] in E7.
  destruct (rel_run F j (obtained rx) suf c l2 E7 Hav a rs2 Esuf) as (a' & E8 & E9).
  exists a', (a_n l1), rx'. split; [|split; [exact E2|apply E9]].
  rewrite a_run_app, D0.
  assert (Ecp : a_step F a0 OCheckpoint = Some (fst (a_checkpoint F a0), RCheckpoint)) by (cbn; unfold a_checkpoint; rewrite Hfull; auto).
  cbn [a_run]. rewrite Ecp, a_run_app, E1. cbn [a_run]. rewrite E4, E8. auto.
Qed.
Print Assumptions C03_documents_partial.

(** C03 on trees: when both are finished, the two trees are equal. *)
Theorem C03_trees_partial : forall T F (pre X suf : list (op T)) d a0 rs0 i rx rs2 t l,
  describes F pre a0 rs0 -> starts_before a0 ->
  let j := obtained rs0 in
  let opened := pre ++ OOpen d :: X ++ OClose :: suf in
  let wrapped := pre ++ OCheckpoint :: map (rename (one_more j)) X ++ OCloseAt j d :: map (rename (one_more j)) suf in
  balanced 0 X -> since j X -> finished F opened t l ->
  run_outs F opened = rs0 ++ RNode i :: rx ++ RUnit :: rs2 ->
  length rx = length X -> ~ In (RErr Overflow) rx -> avoids j (obtained rx) suf ->
  exists t' l', finished F wrapped t' l' /\ map erase l = map erase l' /\
    b_cursor (w_builder (run_world F wrapped)) = b_cursor (w_builder (run_world F opened)) /\
    t_span t' = t_span t /\
    forall eqT, (forall x y, eqT x y = true <-> x = y) -> tree_eq F F eqT t t' = Ok true.
Proof.
  intros T F pre X suf d a0 rs0 i rx rs2 t l D0 Hst j opened wrapped HB Hs Hfin Hrs Hlen HO Hav.
  pose proof Hfin as (HF & (a & rs & D & Ho & Hl) & Hb & Hfit).
  assert (rs = rs0 ++ RNode i :: rx ++ RUnit :: rs2) as ->.
  { rewrite <- Hrs. symmetry. eapply C01_results; eauto. }
  destruct (C03_documents_partial T F pre X suf d a0 rs0 a i rx rs2 D0 Hst HB Hs D Hlen HO Hav) as (a' & i' & rx' & D' & _ & SD).
  change (describes F wrapped a' (rs0 ++ RCheckpoint :: rx' ++ RNode i' :: rs2)) in D'. clearbody wrapped. destruct SD as [S1 S2 S3 S4 S5].
  assert (Ho' : a_open a' = []) by (rewrite Ho in S2; inversion S2; auto).
  destruct (proj2 (C01_builds T F wrapped a' _ HF D') Ho') as [t' Hb'].
  destruct (Refine.refines F HF _ _ _ D) as (w & Ew & HR). destruct (Refine.refines F HF _ _ _ D') as (w' & Ew' & HR').
  unfold builds, run_world in *. rewrite Ew in Hb. rewrite Ew' in Hb'. simpl in Hb, Hb'. unfold build in Hb, Hb'.
  destruct (b_parent (w_builder w)); [discriminate|]. destruct (b_parent (w_builder w')); [discriminate|].
  injection Hb as <-. injection Hb' as <-.
  pose proof (Refine.r_builder _ _ HR) as B. pose proof (Refine.r_builder _ _ HR') as B'.
  assert (Hfin' : finished F wrapped (b_tree (w_builder w')) (a_cur a')).
  { split; auto. split; [exists a', (rs0 ++ RCheckpoint :: rx' ++ RNode i' :: rs2); auto|]. split.
    - unfold builds, run_world, build. rewrite Ew'. simpl. rewrite (Refine.br_parent _ _ B'), Ho'. auto.
    - unfold fits in *. rewrite (Refine.br_len _ _ B) in Hfit. rewrite (Refine.br_len _ _ B'), <- S3. auto. }
  exists (b_tree (w_builder w')), (a_cur a'). split; auto. rewrite <- Hl. split; auto. split.
  { rewrite Ew, Ew'. simpl. rewrite (Refine.br_cursor _ _ B), (Refine.br_cursor _ _ B'). auto. }
  split. { rewrite (Refine.br_span _ _ B), (Refine.br_span _ _ B'). auto. }
  intros eqT HE. apply (proj1 (C28_documents T eqT F opened _ _ F wrapped _ _ HE Hfin Hfin')). rewrite <- Hl. auto.
Qed.
Print Assumptions C03_trees_partial.

(** In a history of plain calls the condition on the innermost open node always holds. *)
Theorem C03_starts : forall T F (pre : list (op T)) a0 rs0, fl_index F <> IxEmpty ->
  describes F pre a0 rs0 -> plain F 0 pre rs0 -> starts_before a0.
Proof.
  intros T F pre a0 rs0 HE D HP. destruct (plain_run F HE pre 0%N doc_new a0 rs0 doc_new_laid D HP) as [HL _].
  destruct HL as [(s & L1 & L2) L3 _]. unfold starts_before. destruct (a_open a0) as [|f fs]; auto.
  simpl in L2. destruct L2 as (-> & _). apply laid_list_le in L1. simpl. rewrite L3. auto.
Qed.
Print Assumptions C03_starts.

(** A block with nested nodes and its own checkpoint, a checkpoint of the prefix used afterwards. *)
Example C03_example :
  let pre := [OOpen 1; OCheckpoint; OToken 2 1] : list (op nat) in
  let X := [OToken 3 2; OCheckpoint; OOpen 4; OToken 5 1; OClose; OCloseAt 1 6; OTokenEmpty 7] : list (op nat) in
  let suf := [OToken 8 1; OCheckpoint; OToken 9 1; OCloseAt 2 10; OCloseAt 0 11; OClose] : list (op nat) in
  let F := flavor_default in
  exists a0 rs0 i rx rs2 t l, describes F pre a0 rs0 /\ starts_before a0 /\
    balanced 0 X /\ since (obtained rs0) X /\ finished F (pre ++ OOpen 0 :: X ++ OClose :: suf) t l /\
    run_outs F (pre ++ OOpen 0 :: X ++ OClose :: suf) = rs0 ++ RNode i :: rx ++ RUnit :: rs2 /\
    length rx = length X /\ ~ In (RErr Overflow) rx /\ avoids (obtained rs0) (obtained rx) suf /\
    length (preorder_list l) = 12.
Proof.
  intros pre X suf F.
  destruct (a_run F doc_new pre) as [[a0 rs0]|] eqn:E0; [|vm_compute in E0; discriminate].
  destruct (build (w_builder (run_world F (pre ++ OOpen 0 :: X ++ OClose :: suf)))) as [t| |] eqn:Et; try (vm_compute in Et; discriminate).
  destruct (a_run F doc_new (pre ++ OOpen 0 :: X ++ OClose :: suf)) as [[a rs]|] eqn:E; [|vm_compute in E; discriminate].
  pose proof E0 as E0'. vm_compute in E0'. injection E0' as <- <-.
  eexists _, [RNode 0; RCheckpoint; RNode 1], 2, [RNode 3; RCheckpoint; RNode 4; RNode 5; RUnit; RNode 6; RNode 7], [RNode 8; RCheckpoint; RNode 9; RNode 10; RNode 11; RUnit], t, (a_cur a).
  split; [exact E0|]. split; [vm_compute; congruence|]. split; [vm_compute; auto|].
  split. { intros o k Hin Hk. simpl in Hin. vm_compute. repeat (destruct Hin as [<-|Hin]; [simpl in Hk; try tauto; subst; repeat constructor|]). tauto. }
  split.
  { split; [split; auto|]. split; [exists a, rs; split; auto; split; auto; vm_compute in E; injection E as <- <-; auto|].
    split; auto. vm_compute in Et. injection Et as <-. vm_compute. auto. }
  split; [vm_compute; reflexivity|]. split; [reflexivity|].
  split. { simpl. intuition discriminate. }
  split. { intros o k Hin Hk. simpl in Hin. repeat (destruct Hin as [<-|Hin]; [simpl in Hk; try tauto; subst k; unfold obtained; simpl; lia|]). tauto. }
  vm_compute in E. injection E as <- <-. vm_compute. auto.
Qed.

(** Without the condition the claim fails: after [open_with] with a span that starts after the cursor,
    the enclosing node ends up with different spans. *)
Theorem C03_any_prefix_refuted : exists (pre X suf : list (op nat)) t t',
  balanced 0 X /\ since 0 X /\
  builds flavor_default (pre ++ OOpen 7 :: X ++ OClose :: suf) t /\
  builds flavor_default (pre ++ OCheckpoint :: X ++ OCloseAt 0 7 :: suf) t' /\
  tree_eq flavor_default flavor_default Nat.eqb t t' = Ok false.
Proof.
  exists [OOpenWith 1 (Span 5 5)], [OToken 2 1], [OClose]. do 2 eexists.
  split; [reflexivity|]. split; [intros o k _ _; lia|].
  split; [vm_compute; reflexivity|]. split; [vm_compute; reflexivity|]. vm_compute. reflexivity.
Qed.
Print Assumptions C03_any_prefix_refuted.
