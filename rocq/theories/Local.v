(** A block of calls, run by itself and inside a document. *)
From Coq Require Import Lia.
From Verif Require Import Base Pointer Index Tree Builder Hist Node Iter Spec SpecSpan SpecEq SpecMarks SpecWrap Rep Marks DocInv Layout.

Lemma add_minus n m : n + m - n = m.
Proof. lia. Qed.

Section Local.
Context {T : Type}.
Variable F : flavor.
Implicit Types (a v : doc T) (o : op T) (ops : list (op T)) (fs : list (frame T)).

(** ** A block by itself, on a machine without limit *)
Definition v_token (d : T) (len : N) v : doc T * out :=
  if len_is_empty F len then (a_leaf d (Span (a_cursor v) (a_cursor v)) v, RNode (a_n v))
  else match ix_checked_add_len F (a_cursor v) len with
    | None => (v, RErr Overflow)
    | Some c => (push_index F c (a_n v) (a_leaf d (Span (a_cursor v) c) (stretch c (move c v))), RNode (a_n v))
    end.
Definition v_close_at (k : nat) (d : T) v : option (doc T * out) :=
  match nth_error (a_marks v) k with
  | None => Some (v, RNoHandle)
  | Some m =>
    if negb (opt_nat_eqb (mark_level m) (level (a_open v))) then Some (v, RErr CloseAtError)
    else match m with
      | MGone _ => None
      | MAt l pos =>
        match skipn pos (a_cur v) with
        | [] => Some (a_leaf d (span_point (a_cursor v)) v, RNode (a_n v))
        | x :: w => Some (Doc (firstn pos (a_cur v) ++ [Nd (a_n v) KWrap d (run_span x w) (x :: w)])
                    (a_open v) (S (a_n v)) (a_cursor v) (a_span v) (a_index v)
                    (map (swallow l pos) (a_marks v)), RNode (a_n v))
        end
      end
  end.
Definition v_step v o : option (doc T * out) :=
  match o with
  | OOpen d => Some (Doc [] (Frame (a_n v) d (span_point (a_cursor v)) (a_cur v) :: touch (a_cursor v) (a_open v)) (S (a_n v))
            (a_cursor v) (a_span v) (a_index v) (a_marks v), RNode (a_n v))
  | OClose => match a_open v with [] => None | _ => Some (a_close v) end
  | OToken d len => Some (v_token d len v)
  | OTokenEmpty d => Some (v_token d 0%N v)
  | OCheckpoint => Some (Doc (a_cur v) (a_open v) (a_n v) (a_cursor v) (a_span v) (a_index v)
            (a_marks v ++ [MAt (level (a_open v)) (length (a_cur v))]), RCheckpoint)
  | OCloseAt k d => v_close_at k d v
  | _ => None
  end.

(** ** Its layout *)
Local Open Scope N_scope.
Fixpoint frames_from (s0 s e : N) fs : Prop :=
  match fs with
  | [] => s = s0
  | f :: fs => f_span f = Span s e /\ exists s', laid_list s' (f_left f) s /\ frames_from s0 s' s fs
  end.
Definition vlaid (s0 : N) v : Prop :=
  exists s, laid_list s (a_cur v) (a_cursor v) /\ frames_from s0 s (a_cursor v) (a_open v).

Lemma touch_from s0 s e e' fs : frames_from s0 s e fs -> frames_from s0 s e' (touch e' fs).
Proof. destruct fs as [|f fs]; simpl; auto. intros [-> H]. split; auto. Qed.
Lemma from_ge s0 fs : forall s e, frames_from s0 s e fs -> s0 <= s.
Proof.
  induction fs as [|f fs IH]; simpl; intros s e H; [lia|]. destruct H as (_ & s' & H1 & H2).
  apply IH in H2. apply laid_list_le in H1. lia.
Qed.
Lemma leaf_vlaid s0 c' v d i : vlaid s0 v -> a_cursor v <= c' -> forall v',
  a_cur v' = a_cur v ++ [Nd i KLeaf d (Span (a_cursor v) c') []] ->
  a_open v' = touch c' (a_open v) -> a_cursor v' = c' -> vlaid s0 v'.
Proof.
  intros (s & H1 & H2) Hc v' E1 E2 E3. exists s. rewrite E1, E2, E3. split.
  - apply laid_app. exists (a_cursor v). split; auto. apply laid_one. constructor. auto.
  - eapply touch_from; eauto.
Qed.

Lemma checked_add_ge len c c' : len_is_empty F len = false -> ix_checked_add_len F c len = Some c' -> c <= c'.
Proof.
  unfold len_is_empty, ix_checked_add_len. destruct (fl_index F); intros E H; try discriminate.
  - destruct (_ <=? _); [|discriminate]. destruct (_ <=? _); [|discriminate]. injection H as <-. lia.
  - destruct (_ <=? _); [|discriminate]. injection H as <-. lia.
Qed.

Lemma v_token_laid s0 d len v v' r : vlaid s0 v -> v_token d len v = (v', r) -> vlaid s0 v'.
Proof.
  intros H E. unfold v_token in E. destruct (len_is_empty F len) eqn:El.
  - injection E as <- <-. eapply (leaf_vlaid s0 (a_cursor v) v d (a_n v)); simpl; auto. lia.
  - destruct (ix_checked_add_len F (a_cursor v) len) as [c|] eqn:Ec; injection E as <- <-; auto.
    eapply (leaf_vlaid s0 c v d (a_n v)); simpl; auto. eapply checked_add_ge; eauto.
Qed.

Lemma v_step_laid s0 v o v' r : vlaid s0 v -> v_step v o = Some (v', r) -> vlaid s0 v'.
Proof.
  intros H E. destruct o; cbn [v_step] in E; try discriminate; try (injection E as E; eapply v_token_laid; eauto; fail).
  - injection E as <- <-. destruct H as (s & H1 & H2). exists (a_cursor v). simpl. split; [constructor|]. split; auto.
    exists s. split; auto. eapply touch_from; eauto.
  - destruct H as (s & H1 & H2). unfold a_close in E. destruct (a_open v) as [|f fs]; [discriminate|]. injection E as <- <-.
    destruct H2 as (Ef & s' & H3 & H4). exists s'. simpl. rewrite Ef. simpl. split.
    + apply laid_app. exists s. split; auto. apply laid_one.
      destruct (a_cur v) as [|x l]; [inversion H1; subst; constructor|constructor; auto].
    + destruct fs as [|f' fs]; simpl in *; auto. destruct H4 as (Ef' & s'' & H5 & H6). split; [|eauto].
      rewrite Ef'. unfold span_join. simpl. apply laid_list_le in H1, H3. f_equal; lia.
  - injection E as <- <-. exact H.
  - unfold v_close_at in E. destruct (nth_error (a_marks v) k) as [m|]; [|injection E as <- <-; auto].
    destruct (negb _); [injection E as <- <-; auto|]. destruct m as [lv pos|]; [|discriminate].
    destruct (skipn pos (a_cur v)) as [|x w] eqn:Es; injection E as <- <-.
    + eapply (leaf_vlaid s0 (a_cursor v) v d (a_n v)); simpl; auto. lia.
    + destruct H as (s & H1 & H2). rewrite <- (firstn_skipn pos (a_cur v)), Es in H1.
      apply laid_app in H1 as (m & H3 & H4). exists s. simpl. split; auto.
      apply laid_app. exists m. split; auto. apply laid_one. rewrite (laid_run_span _ _ _ _ H4). constructor. auto.
Qed.
Local Close Scope N_scope.

(** ** Inside a document *)
Variable off : nat.
Variable base : list (rose T).
Variable outer : list (frame T).
Variable marks0 : list mark.
Variable index0 : list (N * nat).
Variable s0 : N.

Fixpoint lift (x : rose T) : rose T :=
  match x with Nd i k d sp kids => Nd (off + i) k d sp (map lift kids) end.
Fixpoint plug_at (cur : list (rose T)) fs : list (rose T) * list (frame T) :=
  match fs with
  | [] => (base ++ map lift cur, [])
  | f :: fs => let '(l, fs') := plug_at (f_left f) fs in
      (map lift cur, Frame (off + f_id f) (f_data f) (f_span f) l :: fs')
  end.
Definition lvl (l : option nat) : option nat := match l with None => level outer | Some i => Some (off + i) end.
Definition place (l : option nat) (p : nat) : nat := match l with None => length base + p | _ => p end.
Definition mlift (m : mark) : mark :=
  match m with MAt l p => MAt (lvl l) (place l p) | MGone l => MGone (lvl l) end.
Fixpoint bottom_end (c : N) fs : N :=
  match fs with [] => c | f :: fs => bottom_end (s_start (f_span f)) fs end.
Definition blank v : bool := match a_cur v, a_open v with [], [] => true | _, _ => false end.
Definition around v : list (frame T) := if blank v then outer else touch (bottom_end (a_cursor v) (a_open v)) outer.
Definition rlift (r : out) : out := match r with RNode i => RNode (off + i) | r => r end.

Record plugged v a : Prop := {
  pl_cur : a_cur a = fst (plug_at (a_cur v) (a_open v));
  pl_open : a_open a = snd (plug_at (a_cur v) (a_open v)) ++ around v;
  pl_n : a_n a = off + a_n v;
  pl_cursor : a_cursor a = a_cursor v;
  pl_span : a_span a = a_span v;
  pl_index : a_index a = index0 ++ map (fun p => (fst p, off + snd p)) (a_index v);
  pl_marks : a_marks a = marks0 ++ map mlift (a_marks v);
}.

Hypothesis Hlevel : forall i, level outer = Some i -> i < off.
Hypothesis Hmarks : forall m, In m marks0 -> match m with MGone _ => True | MAt l p =>
   (l = level outer -> p <= length base) /\ (forall i, l = Some i -> i < off) end.
Hypothesis Hstart : match outer with [] => True | p :: _ => (s_start (f_span p) <= s0)%N end.

Lemma lvl_inj l l' : lvl l = lvl l' -> l = l'.
Proof.
  destruct l as [i|], l' as [i'|]; simpl; intros E; auto.
  - f_equal. injection E as E. lia.
  - symmetry in E. apply Hlevel in E. lia.
  - apply Hlevel in E. lia.
Qed.
Lemma touch_touch e e' fs : touch e (touch e' fs) = touch e fs.
Proof. destruct fs; auto. Qed.
Lemma level_touch e fs : level (touch e fs) = level fs.
Proof. destruct fs; auto. Qed.
Lemma touch_around e v : touch e (around v) = touch e outer.
Proof. unfold around. destruct (blank v); auto. apply touch_touch. Qed.
Lemma level_around v : level (around v) = level outer.
Proof. unfold around. destruct (blank v); auto. apply level_touch. Qed.

Lemma pl_level v a : plugged v a -> level (a_open a) = lvl (level (a_open v)).
Proof.
  intros H. rewrite (pl_open _ _ H). destruct (a_open v) as [|f fs]; simpl.
  - apply level_around.
  - destruct (plug_at (f_left f) fs). auto.
Qed.

Lemma eqb_lvl l l' : opt_nat_eqb (lvl l) (lvl l') = opt_nat_eqb l l'.
Proof.
  destruct (opt_nat_eqb_spec (lvl l) (lvl l')) as [E|E], (opt_nat_eqb_spec l l') as [E'|E']; auto; exfalso.
  - apply E', lvl_inj, E.
  - apply E. congruence.
Qed.

Lemma swallow_lift l pos m : swallow (lvl l) (place l pos) (mlift m) = mlift (swallow l pos m).
Proof.
  destruct m as [l' p|l']; simpl; auto. rewrite eqb_lvl.
  destruct (opt_nat_eqb_spec l' l) as [->|]; simpl; auto.
  assert (Nat.ltb (place l pos) (place l p) = Nat.ltb pos p) as ->.
  { destruct l; simpl; auto. destruct (Nat.ltb_spec pos p), (Nat.ltb_spec (length base + pos) (length base + p)); auto; lia. }
  destruct (Nat.ltb pos p); auto.
Qed.
Lemma swallow_old l pos : map (swallow (lvl l) (place l pos)) marks0 = marks0.
Proof.
  assert (G : forall m, In m marks0 -> swallow (lvl l) (place l pos) m = m); [|].
  - intros m Hm. specialize (Hmarks m Hm). destruct m as [l' p|l']; simpl; auto.
    destruct (opt_nat_eqb_spec l' (lvl l)) as [->|]; simpl; auto. destruct Hmarks as [H1 H2]. destruct l as [i|]; simpl in *.
    + specialize (H2 _ eq_refl). lia.
    + specialize (H1 eq_refl). destruct (Nat.ltb_spec (length base + pos) p); auto. lia.
  - clear -G. induction marks0 as [|m ms IH]; auto. simpl. rewrite G, IH; simpl; auto. intros; apply G; simpl; auto.
Qed.

Lemma plug_fst cur fs cur' : fst (plug_at (cur ++ cur') fs) = fst (plug_at cur fs) ++ map lift cur'.
Proof.
  destruct fs as [|f fs]; simpl.
  - rewrite map_app, app_assoc. auto.
  - destruct (plug_at (f_left f) fs). simpl. apply map_app.
Qed.
Lemma plug_snd cur cur' fs : snd (plug_at cur fs) = snd (plug_at cur' fs).
Proof. destruct fs as [|f fs]; simpl; auto. destruct (plug_at (f_left f) fs). auto. Qed.

Lemma plug_touch cur e fs : plug_at cur (touch e fs) = (fst (plug_at cur fs), touch e (snd (plug_at cur fs))).
Proof. destruct fs as [|f fs]; simpl; auto. destruct (plug_at (f_left f) fs) as [l fs']. auto. Qed.
Lemma plug_widen cur e fs : plug_at cur (widen e fs) = (fst (plug_at cur fs), widen e (snd (plug_at cur fs))).
Proof. destruct fs as [|f fs]; simpl; auto. destruct (plug_at (f_left f) fs) as [l fs']. auto. Qed.

Lemma touch_app_around e cur fs : fs <> [] -> forall l, touch e (snd (plug_at cur fs) ++ l) = touch e (snd (plug_at cur fs)) ++ l.
Proof. destruct fs as [|f fs]; [congruence|]. simpl. destruct (plug_at (f_left f) fs). auto. Qed.
Lemma widen_app e cur fs : fs <> [] -> forall l, widen e (snd (plug_at cur fs) ++ l) = widen e (snd (plug_at cur fs)) ++ l.
Proof. destruct fs as [|f fs]; [congruence|]. simpl. destruct (plug_at (f_left f) fs). auto. Qed.

Lemma bottom_touch c e fs : fs <> [] -> bottom_end c (touch e fs) = bottom_end c fs.
Proof. destruct fs; [congruence|]. auto. Qed.
Lemma bottom_any c c' fs : fs <> [] -> bottom_end c fs = bottom_end c' fs.
Proof. destruct fs; [congruence|]. auto. Qed.

(** A leaf. *)
Lemma plug_leaf v a v' a' d c c' : plugged v a ->
  a_cur v' = a_cur v ++ [Nd (a_n v) KLeaf d (Span c c') []] -> a_open v' = touch c' (a_open v) -> a_n v' = S (a_n v) ->
  a_cursor v' = c' -> a_marks v' = a_marks v ->
  a_cur a' = a_cur a ++ [Nd (a_n a) KLeaf d (Span c c') []] -> a_open a' = touch c' (a_open a) -> a_n a' = S (a_n a) ->
  a_cursor a' = c' -> a_marks a' = a_marks a -> a_span a' = a_span v' ->
  a_index a' = index0 ++ map (fun p => (fst p, off + snd p)) (a_index v') ->
  plugged v' a'.
Proof.
  intros H E1 E2 E3 E4 E5 F1 F2 F3 F4 F5 F6 F7. constructor; auto; try congruence.
  - rewrite F1, E1, E2, plug_touch. cbn [fst]. rewrite plug_fst, <- (pl_cur _ _ H). simpl. rewrite (pl_n _ _ H). auto.
  - rewrite F2, E1, E2, plug_touch. cbn [snd]. rewrite (plug_snd _ (a_cur v)), (pl_open _ _ H).
    destruct (a_open v) as [|f fs] eqn:Ef.
    + simpl. rewrite touch_around. unfold around, blank. rewrite E1, E2, E4. simpl. destruct (a_cur v); auto.
    + rewrite touch_app_around by congruence. f_equal. unfold around, blank. rewrite E1, E2, E4, Ef. simpl.
      destruct (a_cur v); auto.
  - rewrite F3, E3, (pl_n _ _ H). lia.
  - rewrite F5, E5. apply (pl_marks _ _ H).
Qed.

(** What needs no room. *)
Definition quiet v o : Prop :=
  match o with
  | OClose => True
  | OCloseAt k _ => match nth_error (a_marks v) k with None => True | Some m => mark_level m <> level (a_open v) end
  | _ => False
  end.

(** The checkpoints of the block come after those of the document. *)
Definition named (k : nat) : nat := length marks0 + k.

Lemma nth_marks v a k : plugged v a -> nth_error (a_marks a) (named k) = option_map mlift (nth_error (a_marks v) k).
Proof.
  intros H. rewrite (pl_marks _ _ H). unfold named. rewrite nth_error_app2 by lia.
  rewrite add_minus. apply nth_error_map.
Qed.
Lemma mlift_level m : mark_level (mlift m) = lvl (mark_level m).
Proof. destruct m; auto. Qed.

Lemma plug_quiet v a o a' r : plugged v a -> full F a = true -> a_step F a (rename named o) = Some (a', r) -> r <> RErr Overflow ->
  (forall d sp, o <> OOpenWith d sp) -> (forall d sp, o <> OTokenWith d sp) -> (forall k d sp, o <> OCloseAtWith k d sp) -> (forall c, o <> OSetCursor c) ->
  quiet v o.
Proof.
  intros H Hf E Hr N1 N2 N3 N4. assert (OV : forall b : doc T, Some (b, RErr Overflow) = Some (a', r) -> False) by (intros b X; injection X as _ X; auto).
  destruct o; cbn [rename a_step] in E; simpl; auto.
  - exfalso. unfold a_open_with in E. rewrite Hf in E. eauto.
  - eapply N1; eauto.
  - exfalso. unfold a_token in E. rewrite Hf in E. destruct (len_is_empty F len); eauto. destruct (ix_checked_add_len _ _ _); eauto.
  - exfalso. unfold a_token in E. rewrite Hf in E. destruct (len_is_empty F 0); eauto. destruct (ix_checked_add_len _ _ _); eauto.
  - eapply N2; eauto.
  - exfalso. unfold a_checkpoint in E. rewrite Hf in E. eauto.
  - unfold a_close_at in E. rewrite (nth_marks _ _ _ H) in E. destruct (nth_error (a_marks v) k) as [m|]; simpl in E; auto.
    rewrite mlift_level, (pl_level _ _ H), eqb_lvl in E. rewrite Hf in E.
    destruct (opt_nat_eqb_spec (mark_level m) (level (a_open v))) as [->|]; auto. simpl in E. destruct (OV _ E).
  - eapply N3; eauto.
  - eapply N4; eauto.
Qed.

Lemma run_span_lift x w : run_span (lift x) (map lift w) = run_span x w.
Proof.
  unfold run_span. f_equal; [destruct x; auto|]. revert x; induction w as [|y w IH]; intros x; simpl; [destruct x; auto|]. apply IH.
Qed.

Lemma plug_step v a o : plugged v a -> vlaid s0 v -> (full F a = true -> quiet v o) -> (o = OClose -> a_open v <> []) ->
  (forall d sp, o <> OOpenWith d sp) -> (forall d sp, o <> OTokenWith d sp) -> (forall k d sp, o <> OCloseAtWith k d sp) -> (forall c, o <> OSetCursor c) ->
  match v_step v o with
  | None => a_step F a (rename named o) = None
  | Some (v', r) => exists a', a_step F a (rename named o) = Some (a', rlift r) /\ plugged v' a'
  end.
Proof.
  intros H HL Hq Hc N1 N2 N3 N4.
  assert (NF : ~ quiet v o -> full F a = false) by (intros Hn; destruct (full F a); auto; destruct (Hn (Hq eq_refl))).
  assert (TOK : forall d len, full F a = false ->
    let '(v', r) := v_token d len v in exists a', a_token F d len a = (a', rlift r) /\ plugged v' a').
  { intros d len Hf. unfold v_token, a_token. rewrite Hf, (pl_cursor _ _ H).
    destruct (len_is_empty F len) eqn:El.
    - eexists. split; [simpl; rewrite ?(pl_n _ _ H); reflexivity|].
      eapply (plug_leaf v a _ _ d (a_cursor v) (a_cursor v)); simpl; auto; try apply H; auto; try (rewrite ?(pl_n _ _ H); auto).
    - destruct (ix_checked_add_len F (a_cursor v) len) as [c|].
      + eexists. split; [simpl; rewrite ?(pl_n _ _ H); reflexivity|].
        eapply (plug_leaf v a _ _ d (a_cursor v) c); simpl; auto; try (rewrite ?(pl_n _ _ H); auto; fail).
        * rewrite (pl_span _ _ H). auto.
        * rewrite (pl_index _ _ H). destruct (fl_indexes F); rewrite ?map_app, ?app_assoc; auto.
      + exists a. split; auto. }
  destruct o; cbn [v_step rename a_step];
    try (destruct (N1 d sp); auto; fail); try (destruct (N2 d sp); auto; fail); try (destruct (N3 k d sp); auto; fail); try (destruct (N4 i); auto; fail).
  - (* open *)
    unfold a_open_with. rewrite NF by (simpl; auto). eexists. split; [simpl; rewrite ?(pl_n _ _ H); reflexivity|].
    rewrite (pl_cursor _ _ H). constructor; cbn [a_cur a_open a_n a_cursor a_span a_index a_marks]; try apply H; auto.
    + simpl. rewrite plug_touch. auto.
    + simpl. rewrite plug_touch. simpl. rewrite ?(pl_n _ _ H), (pl_cur _ _ H), (pl_open _ _ H). f_equal.
      destruct (a_open v) as [|f fs] eqn:Ef.
      * simpl. rewrite touch_around. unfold around, blank. simpl. auto.
      * rewrite touch_app_around by congruence. f_equal. unfold around, blank. rewrite Ef. simpl. destruct (a_cur v); auto.
  - (* close *)
    specialize (Hc eq_refl). destruct (a_open v) as [|f fs] eqn:Ef; [congruence|].
    unfold a_close. rewrite Ef, (pl_open _ _ H), Ef. simpl. destruct (plug_at (f_left f) fs) as [l fs'] eqn:Ep. simpl.
    eexists. split; [reflexivity|]. destruct HL as (s & HL1 & HL2). rewrite Ef in HL2. destruct HL2 as (Es & s' & HL3 & HL4).
    constructor; cbn [a_cur a_open a_n a_cursor a_span a_index a_marks]; try apply H; auto.
    + rewrite plug_widen. simpl. rewrite plug_fst, Ep. simpl. rewrite (pl_cur _ _ H), Ef. simpl. rewrite Ep. auto.
    + rewrite plug_widen. simpl. rewrite (plug_snd _ (f_left f)), Ep. simpl.
      destruct fs as [|g fs].
      * simpl in Ep. injection Ep as <- <-. simpl. simpl in HL4. subst s'.
        unfold around, blank. simpl. rewrite Ef. assert ((match a_cur v with [] => false | _ => false end) = false) as -> by (destruct (a_cur v); auto).
        simpl. rewrite Es. simpl. destruct (f_left f ++ _) eqn:Ex; [destruct (f_left f); discriminate|].
        pose proof (laid_list_le _ _ _ HL1). pose proof (laid_list_le _ _ _ HL3).
        destruct outer as [|p ps]; simpl; auto. f_equal. f_equal. unfold span_join, set_end. simpl. f_equal; lia.
      * simpl in Ep. destruct (plug_at (f_left g) fs) as [lg fg] eqn:Eg. injection Ep as <- <-. simpl. f_equal. f_equal.
        destruct HL4 as (Eg' & s'' & HL5 & HL6). pose proof (laid_list_le _ _ _ HL3).
        unfold around, blank. simpl. rewrite Ef. destruct (f_left f ++ _) eqn:Ex; [destruct (f_left f); discriminate|].
        destruct (a_cur v); simpl; rewrite Eg', Es; simpl; rewrite N.min_l by lia; auto.
  - specialize (TOK d len (NF (fun x => x))). destruct (v_token d len v) as [v' r]. destruct TOK as (a' & E & P). exists a'. rewrite E. auto.
  - specialize (TOK d 0%N (NF (fun x => x))). destruct (v_token d 0%N v) as [v' r]. destruct TOK as (a' & E & P). exists a'. rewrite E. auto.
  - (* checkpoint *)
    unfold a_checkpoint. rewrite NF by (simpl; auto). eexists. split; [reflexivity|].
    constructor; cbn [a_cur a_open a_n a_cursor a_span a_index a_marks]; try apply H.
    rewrite (pl_marks _ _ H), map_app, <- app_assoc. simpl. rewrite (pl_level _ _ H). do 3 f_equal. f_equal.
    rewrite (pl_cur _ _ H). destruct (a_open v) as [|f fs]; simpl.
    + rewrite app_length, map_length. auto.
    + destruct (plug_at (f_left f) fs). simpl. rewrite map_length. auto.
  - (* close_at *)
    unfold v_close_at, a_close_at. rewrite (nth_marks _ _ _ H). destruct (nth_error (a_marks v) k) as [m|] eqn:Em; simpl; eauto.
    rewrite mlift_level, (pl_level _ _ H), eqb_lvl.
    destruct (opt_nat_eqb_spec (mark_level m) (level (a_open v))) as [El|El]; simpl; eauto.
    rewrite NF by (simpl; rewrite Em; auto). destruct m as [l pos|]; simpl; auto. simpl in El. subst l.
    assert (Esk : skipn (place (level (a_open v)) pos) (a_cur a) = map lift (skipn pos (a_cur v))).
    { rewrite (pl_cur _ _ H). destruct (a_open v) as [|f fs]; simpl.
      - rewrite skipn_app, skipn_all2, add_minus by lia. simpl. rewrite <- skipn_map. auto.
      - destruct (plug_at (f_left f) fs). simpl. symmetry. rewrite skipn_map. auto. }
    assert (Efn : firstn (place (level (a_open v)) pos) (a_cur a) = fst (plug_at (firstn pos (a_cur v)) (a_open v))).
    { rewrite (pl_cur _ _ H). destruct (a_open v) as [|f fs]; simpl.
      - rewrite firstn_app, firstn_all2, add_minus by lia. rewrite <- firstn_map. auto.
      - destruct (plug_at (f_left f) fs). simpl. rewrite firstn_map. auto. }
    rewrite Esk. destruct (skipn pos (a_cur v)) as [|x w] eqn:Es; simpl.
    + eexists. split; [rewrite ?(pl_n _ _ H); reflexivity|]. unfold span_point. rewrite (pl_cursor _ _ H).
      eapply (plug_leaf v a _ _ d (a_cursor v) (a_cursor v)); simpl; auto; try apply H; auto; try (rewrite ?(pl_n _ _ H); auto).
    + eexists. split; [rewrite ?(pl_n _ _ H); reflexivity|].
      constructor; cbn [a_cur a_open a_n a_cursor a_span a_index a_marks]; try apply H.
      * rewrite plug_fst, Efn. simpl. rewrite run_span_lift, ?(pl_n _ _ H). auto.
      * rewrite (plug_snd _ (a_cur v)), (pl_open _ _ H). f_equal. unfold around, blank. simpl.
        destruct (firstn pos (a_cur v) ++ _) eqn:Ex; [destruct (firstn pos (a_cur v)); discriminate|].
        destruct (a_cur v) eqn:Ev; [rewrite skipn_nil in Es; discriminate|]. auto.
      * rewrite ?(pl_n _ _ H). lia.
      * rewrite (pl_marks _ _ H), map_app, swallow_old, !map_map. f_equal. apply map_ext. intros m. apply swallow_lift.
Qed.
End Local.
