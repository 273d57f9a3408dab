(** C49: the program examples/math.rs. *)
From Coq Require Import Lia.
From Verif Require Import Base Pointer Index Tree Builder Hist Node Iter Print Spec SpecEq SpecProgram Text ClientMath SpecMath
  PropsProgram ClientFacts.

Lemma yields_program {T} F (q : prog T) : vec_flavor F -> fl_index F <> IxEmpty -> scoped false q ->
  yields F (build_try F (program_calls 0 0 q)) (program_trees [] q).
Proof.
  intros HF HE Hq. destruct (C48_structured T F q HF HE Hq) as [[H|(t & l & H1 & H2 & H3 & H4 & H5)] H6]; split; auto.
  right. eauto 10.
Qed.

(** ** Reading tokens. *)
Lemma split_blank (ts : list mtoken) : exists ws rest, ts = ws ++ rest /\ Forall blank ws /\ not_blank rest.
Proof.
  induction ts as [|[s n] ts (ws & rest & -> & H1 & H2)]. { exists [], []. repeat split; auto. intros t r E. discriminate. }
  assert (D : s = MWhitespace \/ s <> MWhitespace) by (destruct s; auto; right; discriminate). destruct D as [->|D].
  - exists ((MWhitespace, n) :: ws), rest. repeat split; auto. constructor; auto. reflexivity.
  - exists [], ((s, n) :: ws ++ rest). repeat split; auto. intros t r E. injection E as <- _. exact D.
Qed.
Lemma split_unique (ws ws' rest rest' : list mtoken) : Forall blank ws -> Forall blank ws' -> not_blank rest -> not_blank rest' ->
  ws ++ rest = ws' ++ rest' -> ws = ws' /\ rest = rest'.
Proof.
  revert ws'. induction ws as [|t ws IH]; intros [|t' ws'] H1 H2 H3 H4 E; simpl in E; auto.
  - exfalso. inversion H2; subst. eapply H3; eauto.
  - exfalso. inversion H1; subst. eapply H4; eauto.
  - injection E as -> E. inversion H1; inversion H2; subst. destruct (IH ws') as [-> ->]; auto.
Qed.
Lemma not_blank_cons t (r : list mtoken) : ~ blank t -> not_blank (t :: r).
Proof. intros H t' r' E. injection E as <- _. auto. Qed.
Lemma not_blank_nil : not_blank [].
Proof. intros t r E. discriminate. Qed.
#[local] Hint Resolve not_blank_cons not_blank_nil : core.

Definition functional (R : list mtoken -> list (gtree msyntax) -> list mtoken -> Prop) : Prop :=
  forall ts o r o' r', R ts o r -> R ts o' r' -> o = o' /\ r = r'.
Lemma number_not_blank len : ~ blank (MNumber, len). Proof. discriminate. Qed.
#[local] Hint Resolve number_not_blank : core.

Lemma value_functional : functional value.
Proof.
  intros ts o r o' r' H H'. destruct H; inversion H'; subst;
    try (match goal with E : _ ++ _ :: _ = _ ++ _ :: _ |- _ => apply split_unique in E as [E1 E2]; auto end;
         injection E2; intros; subst; auto; exfalso; simpl in *; congruence);
    try (exfalso; match goal with B : Forall blank (_ ++ _ :: _) |- _ => rewrite Forall_app in B; destruct B as [_ B]; inversion B; subst; auto; discriminate end).
  auto.
Qed.
Lemma operations_functional tokens R : functional R -> forall acc ts o r o' r',
  operations tokens R acc ts o r -> operations tokens R acc ts o' r' -> o = o' /\ r = r'.
Proof.
  intros HR acc ts o r o' r' H. revert o' r'. induction H as [acc ws rest B N1 N2|acc ws t r1 ts1 r2 out rest B N1 N2 Hn Ho IH]; intros o' r' H'.
  - inversion H' as [acc' ws' rest' B' N1' N2'|acc' ws' t' r1' ts1' r2' out' rest' B' N1' N2' Hn' Ho']; subst;
      match goal with E : _ ++ _ = _ ++ _ |- _ => apply split_unique in E as [-> EE]; auto; subst end; auto.
    exfalso. eapply N2; eauto.
  - inversion H' as [acc' ws' rest' B' N1' N2'|acc' ws' t' r1' ts1' r2' out' rest' B' N1' N2' Hn' Ho']; subst;
      match goal with E : _ ++ _ = _ ++ _ |- _ => apply split_unique in E as [-> EE]; auto; subst end.
    + exfalso. eapply N2'; eauto.
    + injection EE as -> ->. destruct (HR _ _ _ _ _ Hn Hn') as [-> ->]. eapply IH; eauto.
Qed.
Lemma level_functional tokens R : functional R -> functional (level_of tokens R).
Proof.
  intros HR ts o r o' r' (x & y & A & B) (x' & y' & A' & B'). destruct (HR _ _ _ _ _ A A') as [-> ->]. eapply operations_functional; eauto.
Qed.
Lemma sum_functional : functional sum_of.
Proof. apply level_functional, level_functional, value_functional. Qed.

(** ** The parser. *)
Section Parser.
Variable F : flavor.
Definition blank_leaves (l : list mtoken) : list (gtree msyntax) := map leaf l.
Lemma trees_toks_leaf l acc : program_trees acc (toks l) = acc ++ map leaf l.
Proof. apply trees_toks. Qed.
Lemma leaves_leaf l : flat_map leaves (map leaf l) = l.
Proof. induction l as [|[d n] l IH]; simpl; auto. rewrite IH. auto. Qed.

Lemma peek_does ws : forall rest w c fuel, Forall blank ws -> not_blank rest -> length ws < fuel ->
  m_peek_loop F fuel (MParser w (ws ++ rest)) = does F w (toks ws) c (fun w => Ok (MParser w rest, option_map fst (hd_error rest))).
Proof.
  induction ws as [|[s n] ws IH]; intros rest w c fuel B N1 L; (destruct fuel as [|fuel]; [inversion L|]); cbn [m_peek_loop mp_iter app].
  - change (toks []) with (@PDone msyntax). rewrite does_done. destruct rest as [|[s n] rest]; auto. specialize (N1 _ _ eq_refl). destruct s; auto. exfalso. apply N1. reflexivity.
  - inversion B as [|? ? Hb B']; subst. unfold blank in Hb. simpl in Hb. subst s. unfold m_bump. cbn [mp_iter mp_world].
    rewrite bind_bind, does_toks_cons. cbn [fst snd]. apply bind_ext. intros w1. cbn [bind]. simpl in L. apply IH; auto. lia.
Qed.
Lemma peek_does' ws rest w c : Forall blank ws -> not_blank rest ->
  m_peek F (MParser w (ws ++ rest)) = does F w (toks ws) c (fun w => Ok (MParser w rest, option_map fst (hd_error rest))).
Proof. intros. unfold m_peek. apply peek_does; auto. cbn [mp_iter]. rewrite app_length. lia. Qed.

Definition implements (f : mparser -> result mparser) (R : list mtoken -> list (gtree msyntax) -> list mtoken -> Prop) : Prop :=
  forall ts, exists out rest q, R ts out rest /\ scoped false q /\ program_trees [] q = out /\ flat_map leaves out ++ rest = ts /\
    forall w c, f (MParser w ts) = does F w q c (fun w => Ok (MParser w rest)).

Lemma val_implements : implements (m_parse_val F) value.
Proof.
  intros ts. destruct (split_blank ts) as (ws & rest & -> & B & N1).
  assert (D : (exists len r, rest = (MNumber, len) :: r) \/
              (forall (A : Type) (x y : A), match option_map fst (hd_error rest) with Some MNumber => x | _ => y end = y)
              /\ (rest = [] \/ exists t r, rest = t :: r /\ fst t <> MNumber)).
  { destruct rest as [|[s n] r]; [right; split; auto|]. destruct s; [| | | | |left; eauto|..]; right; simpl; split; auto; right; eexists; eexists; split; eauto; discriminate. }
  destruct D as [(len & r & ->)|[Dm D]].
  - exists (map leaf ws ++ [GTok MNumber len]), r, (seq (toks ws) (PTok MNumber len PDone)). split; [constructor; auto|].
    split; [rewrite scoped_seq; split; [apply scoped_toks|simpl; auto]|]. split; [rewrite trees_seq, trees_toks_leaf; auto|].
    split; [rewrite flat_map_app, leaves_leaf, <- app_assoc; auto|].
    intros w c. unfold m_parse_val. rewrite (peek_does' _ _ _ c B N1), does_bind, does_seq. apply does_ext. intros w1. cbn [bind].
    simpl. unfold m_bump. cbn [mp_iter mp_world]. rewrite does_tok. auto.
  - exists (map leaf ws ++ [GNode MError (map leaf (firstn 1 rest))]), (skipn 1 rest), (seq (toks ws) (PNode MError (toks (firstn 1 rest)) PDone)).
    split; [|split; [|split; [|split]]].
    + destruct D as [->|(t & r & -> & Ht)]; simpl; [rewrite app_nil_r; constructor; auto|]. constructor; auto. eapply N1; eauto.
    + rewrite scoped_seq. split; [apply scoped_toks|]. simpl. split; auto. apply scoped_toks.
    + rewrite trees_seq, trees_toks_leaf. simpl. rewrite trees_toks_leaf. auto.
    + rewrite flat_map_app, leaves_leaf. simpl. rewrite leaves_leaf, app_nil_r, <- app_assoc. f_equal. destruct rest; auto.
    + intros w c. unfold m_parse_val. rewrite (peek_does' _ _ _ c B N1), does_bind, does_seq. apply does_ext. intros w1. cbn [bind].
      rewrite Dm. cbn [mp_world mp_iter]. rewrite does_node. apply bind_ext. intros w2. unfold m_bump. cbn [mp_iter mp_world].
      destruct rest as [|[s n] r]; cbn [firstn skipn].
      * change (toks []) with (@PDone msyntax). rewrite does_done. auto.
      * rewrite bind_bind, does_toks_cons. apply bind_ext. intros w3. auto.
Qed.

Lemma existsb_in t tokens : existsb (msyntax_eqb t) tokens = true <-> In t tokens.
Proof.
  assert (E : forall a b, msyntax_eqb a b = true <-> a = b) by (intros [] []; simpl; split; auto; discriminate).
  rewrite existsb_exists. split.
  - intros (x & H1 & H2). apply E in H2. subst. auto.
  - intros H. exists t. split; auto. apply E. auto.
Qed.

Lemma operations_implements tokens next R : implements next R -> forall n ts acc, length ts < n ->
  exists out rest q, operations tokens R acc ts out rest /\ scoped true q /\ program_trees acc q = out /\
    flat_map leaves out ++ rest = flat_map leaves acc ++ ts /\
    forall fuel w c, length ts < fuel -> m_operations F fuel tokens next c (MParser w ts) = does F w q c (fun w => Ok (MParser w rest)).
Proof.
  intros HI n. induction n as [|n IH]; intros ts acc L; [inversion L|].
  destruct (split_blank ts) as (ws & rest & -> & B & N1).
  assert (D : (exists t r, rest = t :: r /\ In (fst t) tokens) \/
     (match option_map fst (hd_error rest) with Some t => existsb (msyntax_eqb t) tokens | None => false end = false)).
  { destruct rest as [|t r]; auto. simpl. destruct (existsb (msyntax_eqb (fst t)) tokens) eqn:E; auto. apply existsb_in in E. eauto. }
  destruct D as [([s m] & r1 & -> & Hin)|Hst].
  - destruct (HI r1) as (ts1 & r2 & q1 & A1 & A2 & A3 & A4 & A5).
    assert (L2 : length r2 <= length r1) by (rewrite <- A4, app_length; lia).
    rewrite app_length in L. simpl in L.
    destruct (IH r2 [GNode MOperation (acc ++ map leaf ws ++ leaf (s, m) :: ts1)]) as (out & r3 & q2 & B1 & B2 & B3 & B4 & B5); [lia|].
    exists out, r3, (seq (toks ws) (PTok s m (seq q1 (PWrap MOperation q2)))). split; [|split; [|split; [|split]]].
    + econstructor; eauto.
    + rewrite scoped_seq. split; [apply scoped_toks|]. simpl. rewrite scoped_seq. split; [apply scoped_mono; auto|]. simpl; auto.
    + rewrite trees_seq, trees_toks_leaf. simpl. rewrite trees_seq, (trees_any q1 A2), A3. simpl. rewrite <- B3. f_equal. f_equal.
      f_equal. rewrite <- !app_assoc. auto.
    + rewrite B4. simpl. rewrite app_nil_r, !flat_map_app, leaves_leaf. simpl. rewrite <- A4, <- !app_assoc. simpl. rewrite <- ?app_assoc. auto.
    + intros fuel w c Lf. rewrite app_length in Lf. simpl in Lf. destruct fuel as [|fuel]; [lia|]. cbn [m_operations].
      rewrite (peek_does' _ _ _ c B N1), does_bind, does_seq. apply does_ext. intros w1. cbn [bind hd_error option_map].
      simpl in Hin. apply existsb_in in Hin. cbn [fst]. rewrite Hin. unfold m_bump. cbn [mp_iter mp_world]. rewrite bind_bind.
      change (PTok s m (seq q1 (PWrap MOperation q2))) with (seq (PTok s m PDone) (seq q1 (seq (PWrap MOperation PDone) q2))).
      rewrite does_seq, does_tok. apply bind_ext. intros w2. cbn [bind]. rewrite (A5 w2 c), does_bind, does_seq. apply does_ext. intros w3. cbn [bind mp_world mp_iter].
      rewrite does_seq, does_wrap. apply bind_ext. intros w4. apply B5. lia.
  - exists (acc ++ map leaf ws), rest, (toks ws). split; [|split; [|split; [|split]]].
    + constructor; auto. intros t r -> Hi. simpl in Hst. apply existsb_in in Hi. congruence.
    + apply scoped_toks.
    + apply trees_toks_leaf.
    + rewrite flat_map_app, leaves_leaf, <- app_assoc. auto.
    + intros fuel w c Lf. destruct fuel as [|fuel]; [lia|]. cbn [m_operations]. rewrite (peek_does' _ _ _ c B N1), does_bind.
      apply does_ext. intros w1. cbn [bind]. rewrite Hst. auto.
Qed.

Lemma handle_implements tokens next R : implements next R -> implements (m_handle_operation F tokens next) (level_of tokens R).
Proof.
  intros HI ts. destruct (HI ts) as (ts1 & r1 & q1 & A1 & A2 & A3 & A4 & A5).
  destruct (operations_implements tokens next R HI (S (length r1)) r1 ts1) as (out & rest & q2 & B1 & B2 & B3 & B4 & B5); auto.
  exists out, rest, (PMark (seq q1 q2) PDone). split; [exists ts1, r1; auto|]. split; [simpl; rewrite scoped_seq; auto using scoped_mono|].
  split; [simpl; rewrite trees_seq, A3; auto|]. split; [congruence|].
  intros w c. unfold m_handle_operation. rewrite does_mark. cbn [mp_world mp_iter]. apply bind_ext. intros [w1 c1].
  rewrite (A5 w1 c1), does_bind, does_seq. apply does_ext. intros w2. cbn [bind]. apply B5. auto.
Qed.
Lemma add_implements : implements (m_parse_add F) sum_of.
Proof. apply handle_implements, handle_implements, val_implements. Qed.

Lemma parse_yields (HF : vec_flavor F) (HE : fl_index F <> IxEmpty) ts : exists out rest, sum_of ts out rest /\ flat_map leaves out ++ rest = ts /\
  yields F (m_parse F (MParser world_new ts)) [GNode MRoot out].
Proof.
  destruct (add_implements ts) as (out & rest & q & A1 & A2 & A3 & A4 & A5). exists out, rest. split; auto. split; auto.
  pose proof (yields_program F (PNode MRoot q PDone) HF HE) as Y. simpl in Y. rewrite A3 in Y.
  replace (m_parse F (MParser world_new ts)) with (build_try F (program_calls 0 0 (PNode MRoot q PDone))); [apply Y; auto|].
  change (build_try F (program_calls 0 0 (PNode MRoot q PDone))) with
    (match run_try F world_new (program_calls (length (w_env (@world_new msyntax))) 0 (PNode MRoot q PDone)) with
     | Ok w => build (w_builder w) | Err e => Err e | Diverge => Diverge end).
  change (match run_try F world_new (program_calls (length (w_env (@world_new msyntax))) 0 (PNode MRoot q PDone)) with
     | Ok w => build (w_builder w) | Err e => Err e | Diverge => Diverge end) with
     (does F world_new (PNode MRoot q PDone) 0 (fun w => build (w_builder w))).
  rewrite does_node. unfold m_parse. cbn [mp_world mp_iter]. apply bind_ext. intros w1. rewrite (A5 w1 0), does_bind. apply does_ext. intros w2. auto.
Qed.
End Parser.

(** ** The lexer. *)
Lemma str_len_app a b : str_len (a ++ b) = (str_len a + str_len b)%N.
Proof. induction a; simpl; auto. rewrite IHa. lia. Qed.
Lemma eat_prefix cond a : forall o rest, forallb cond a = true -> match rest with [] => True | c :: _ => cond c = false end ->
  eat cond (char_indices o (a ++ rest)) = char_indices (o + str_len a) rest.
Proof.
  induction a as [|c a IH]; intros o rest H1 H2; simpl.
  - rewrite N.add_0_r. destruct rest as [|c rest]; simpl; auto. rewrite H2. auto.
  - simpl in H1. apply andb_prop in H1 as [-> H1]. rewrite IH; auto. rewrite N.add_assoc. auto.
Qed.
Lemma take_prefix cond (s : str) : exists a rest, s = a ++ rest /\ forallb cond a = true /\ match rest with [] => True | c :: _ => cond c = false end.
Proof.
  induction s as [|c s (a & rest & -> & H1 & H2)]. { exists [], []. auto. }
  destruct (cond c) eqn:E. - exists (c :: a), rest. simpl. rewrite E. auto. - exists [], (c :: a ++ rest). auto.
Qed.
Lemma digit_range c : is_digit c = true -> (48 <= c <= 57)%N.
Proof. unfold is_digit. intros H. apply andb_prop in H as [H1 H2]. apply N.leb_le in H1, H2. lia. Qed.
Lemma digit_not_space c : is_digit c = true -> is_whitespace c = false.
Proof.
  intros H. apply digit_range in H. unfold is_whitespace.
  repeat match goal with |- context [(?a <=? ?b)%N] => destruct (N.leb_spec a b); try lia end;
  repeat match goal with |- context [(?a =? ?b)%N] => destruct (N.eqb_spec a b); try lia end; auto.
Qed.
Lemma digit_not_op c : is_digit c = true -> ((c =? 43) = false /\ (c =? 45) = false /\ (c =? 47) = false /\ (c =? 42) = false)%N.
Proof. intros H. apply digit_range in H. repeat split; apply N.eqb_neq; lia. Qed.

Lemma next_lexeme k a : lexeme k a -> forall o rest, ends k rest ->
  math_next (o + str_len (a ++ rest)) (char_indices o (a ++ rest)) = Some ((k, str_len a), char_indices (o + str_len a) rest).
Proof.
  intros H o rest He.
  assert (G : forall len, (match char_indices len rest with (n, _) :: _ => n | [] => o + str_len (a ++ rest) end = len)%N \/ (len <> o + str_len a)%N).
  { intros len. destruct rest as [|c rest]; simpl; auto. rewrite app_nil_r. destruct (N.eq_dec len (o + str_len a)); auto. }
  assert (G' : (match char_indices (o + str_len a) rest with (n, _) :: _ => n | [] => o + str_len (a ++ rest) end = o + str_len a)%N).
  { destruct (G (o + str_len a)%N); [auto|congruence]. }
  clear G.
  assert (K : forall c s cond, a = c :: s -> forallb cond s = true -> match rest with [] => True | c :: _ => cond c = false end ->
     eat cond (char_indices (o + len_utf8 c) (s ++ rest)) = char_indices (o + str_len a) rest).
  { intros c s cond -> H1 H2. rewrite eat_prefix; auto. simpl. rewrite N.add_assoc. auto. }
  destruct H as [c s H1 H2| | | | |c s H1 H2|c s H1 H2].
  - cbn [app char_indices math_next]. rewrite H1, (K c s is_whitespace eq_refl H2) by (destruct rest; auto).
    change (c :: s ++ rest) with ((c :: s) ++ rest). rewrite G'. do 3 f_equal. lia.
  - transitivity (Some (((MAdd, (match char_indices (o + str_len [43]) rest with (n, _) :: _ => n | [] => o + str_len ([43] ++ rest) end - o)),
      char_indices (o + str_len [43]) rest)))%N; [reflexivity|]. rewrite G'. do 3 f_equal. lia.
  - transitivity (Some (((MSub, (match char_indices (o + str_len [45]) rest with (n, _) :: _ => n | [] => o + str_len ([45] ++ rest) end - o)),
      char_indices (o + str_len [45]) rest)))%N; [reflexivity|]. rewrite G'. do 3 f_equal. lia.
  - transitivity (Some (((MDiv, (match char_indices (o + str_len [47]) rest with (n, _) :: _ => n | [] => o + str_len ([47] ++ rest) end - o)),
      char_indices (o + str_len [47]) rest)))%N; [reflexivity|]. rewrite G'. do 3 f_equal. lia.
  - transitivity (Some (((MMul, (match char_indices (o + str_len [42]) rest with (n, _) :: _ => n | [] => o + str_len ([42] ++ rest) end - o)),
      char_indices (o + str_len [42]) rest)))%N; [reflexivity|]. rewrite G'. do 3 f_equal. lia.
  - destruct (digit_not_op c H1) as (E1 & E2 & E3 & E4). cbn [app char_indices math_next]. rewrite (digit_not_space c H1), E1, E2, E3, E4, H1.
    rewrite (K c s (fun c => is_digit c || (c =? 46)%N) eq_refl H2) by (destruct rest; auto).
    change (c :: s ++ rest) with ((c :: s) ++ rest). rewrite G'. do 3 f_equal. lia.
  - unfold other_char in H1. apply andb_prop in H1 as [H1 E]. apply andb_prop in H1 as [H0 H1]. apply negb_true_iff in H0, H1, E.
    cbn [existsb] in E. apply orb_false_elim in E as [E1 E]. apply orb_false_elim in E as [E2 E]. apply orb_false_elim in E as [E3 E]. apply orb_false_elim in E as [E4 _].
    cbn [app char_indices math_next]. rewrite H0, E1, E2, E3, E4, H1.
    rewrite (K c s (fun c => negb (is_whitespace c)) eq_refl H2) by (destruct rest; auto; simpl in He; rewrite He; auto).
    change (c :: s ++ rest) with ((c :: s) ++ rest). rewrite G'. do 3 f_equal. lia.
Qed.
Lemma some_lexeme s : s <> [] -> exists k a rest, s = a ++ rest /\ lexeme k a /\ ends k rest.
Proof.
  destruct s as [|c s]; [congruence|intros _].
  destruct (is_whitespace c) eqn:E0.
  { destruct (take_prefix is_whitespace s) as (a & rest & -> & H1 & H2). exists MWhitespace, (c :: a), rest. repeat split; auto. constructor; auto. }
  destruct (N.eqb_spec c 43) as [->|E1]; [exists MAdd, [43%N], s; repeat split; try constructor; destruct s; simpl; auto|].
  destruct (N.eqb_spec c 45) as [->|E2]; [exists MSub, [45%N], s; repeat split; try constructor; destruct s; simpl; auto|].
  destruct (N.eqb_spec c 47) as [->|E3]; [exists MDiv, [47%N], s; repeat split; try constructor; destruct s; simpl; auto|].
  destruct (N.eqb_spec c 42) as [->|E4]; [exists MMul, [42%N], s; repeat split; try constructor; destruct s; simpl; auto|].
  destruct (is_digit c) eqn:E5.
  { destruct (take_prefix number_char s) as (a & rest & -> & H1 & H2). exists MNumber, (c :: a), rest. repeat split; auto. constructor; auto. }
  destruct (take_prefix (fun c => negb (is_whitespace c)) s) as (a & rest & -> & H1 & H2). exists MError, (c :: a), rest. split; [auto|]. split.
  - constructor; auto. unfold other_char. rewrite E0, E5. simpl. rewrite !orb_false_r.
    apply N.eqb_neq in E1, E2, E3, E4. rewrite E1, E2, E3, E4. auto.
  - destruct rest; simpl; auto. apply negb_false_iff in H2. auto.
Qed.
Lemma lexeme_nonempty k a : lexeme k a -> a <> [].
Proof. intros []; discriminate. Qed.
Lemma lexes_total s : exists ts, lexes s ts.
Proof.
  remember (length s) as n eqn:E. assert (L : length s <= n) by lia. clear E. revert s L.
  induction n as [|n IH]; intros s L.
  - destruct s; [|simpl in L; lia]. exists []. constructor.
  - destruct s as [|c s]; [exists []; constructor|]. destruct (some_lexeme (c :: s)) as (k & a & rest & E & H1 & H2); [discriminate|].
    rewrite E in *. destruct (IH rest) as (ts & H). { pose proof (lexeme_nonempty _ _ H1). destruct a; [congruence|]. rewrite app_length in L. simpl in L. lia. }
    eexists. econstructor; eauto.
Qed.
Lemma lexes_lex s ts : lexes s ts -> forall fuel o, length s < fuel -> math_lex fuel (o + str_len s) (char_indices o s) = ts.
Proof.
  induction 1 as [|k a rest ts H1 H2 H IH]; intros fuel o L.
  - destruct fuel; auto.
  - destruct fuel as [|fuel]; [lia|]. cbn [math_lex]. rewrite (next_lexeme k a H1 o rest H2). f_equal. rewrite str_len_app, N.add_assoc. apply IH.
    rewrite app_length in L. pose proof (lexeme_nonempty _ _ H1). destruct a; [congruence|]. simpl in L. lia.
Qed.
Lemma lexer_lexes s ts : lexes s ts -> math_lexer s = ts.
Proof. intros H. apply (lexes_lex s ts H (S (length s)) 0%N). lia. Qed.

(** ** Expressions. *)
Definition space_tokens (s : str) : list mtoken := match s with [] => [] | _ => [(MWhitespace, str_len s)] end.
Definition operand_tokens (v : operand) : list mtoken := space_tokens (o_space v) ++ [(MNumber, str_len (o_number v))].
Definition factor_tokens (x : str * bool * operand) : list mtoken :=
  let '(ws, b, v) := x in space_tokens ws ++ (if b : bool then MMul else MDiv, 1%N) :: operand_tokens v.
Definition product_tokens (p : product) : list mtoken :=
  operand_tokens (p_first p) ++ flat_map factor_tokens (p_rest p) ++ space_tokens (p_space p).
Definition term_tokens (x : bool * product) : list mtoken := let '(b, p) := x in (if b : bool then MAdd else MSub, 1%N) :: product_tokens p.
Definition sum_tokens (s : sum) : list mtoken := product_tokens (s_first s) ++ flat_map term_tokens (s_rest s).

Lemma space_leaf s : map leaf (space_tokens s) = space_tree s.
Proof. destruct s; auto. Qed.
Lemma space_blank s : Forall blank (space_tokens s).
Proof. destruct s; simpl; auto. constructor; auto. reflexivity. Qed.
#[local] Hint Resolve space_blank : core.

Definition starts_with (p : char -> bool) (s : str) : Prop := match s with [] => True | c :: _ => p c = true end.
Definition not_space (c : char) : bool := negb (is_whitespace c).
Definition not_number (c : char) : bool := negb (number_char c).

Lemma lexes_space s rest ts : spaces s -> starts_with not_space rest -> lexes rest ts -> lexes (s ++ rest) (space_tokens s ++ ts).
Proof.
  intros H1 H2 H. destruct s as [|c s]; auto. simpl space_tokens. cbn [app]. change (c :: s ++ rest) with ((c :: s) ++ rest).
  constructor; auto.
  - unfold spaces in H1. simpl in H1. apply andb_prop in H1 as [H1 H3]. constructor; auto.
  - destruct rest; simpl; auto. apply negb_true_iff in H2. auto.
Qed.
Lemma lexes_operand v rest ts : operand_ok v -> starts_with not_number rest -> lexes rest ts -> lexes (operand_text v ++ rest) (operand_tokens v ++ ts).
Proof.
  intros (H1 & c & s & E & H2 & H3) H4 H. unfold operand_text, operand_tokens. rewrite <- !app_assoc. apply lexes_space; auto.
  - rewrite E. simpl. unfold not_space. rewrite (digit_not_space c H2). auto.
  - cbn [app]. constructor; auto.
    + rewrite E. constructor; auto.
    + destruct rest; simpl; auto. apply negb_true_iff in H4. auto.
Qed.
Lemma space_starts s rest : spaces s -> starts_with not_number rest -> starts_with not_number (s ++ rest).
Proof.
  intros H1 H2. destruct s as [|c s]; auto. simpl. unfold spaces in H1. simpl in H1. apply andb_prop in H1 as [H1 _].
  unfold not_number, number_char. destruct (is_digit c) eqn:E. { rewrite (digit_not_space c E) in H1. discriminate. }
  destruct (N.eqb_spec c 46); auto. subst. discriminate.
Qed.
Lemma lexes_mul b rest ts : lexes rest ts -> lexes (mul_char b :: rest) ((if b : bool then MMul else MDiv, 1%N) :: ts).
Proof.
  intros H. destruct b; simpl.
  - apply (@lexes_cons MMul [42%N] rest ts); auto. constructor. destruct rest; simpl; auto.
  - apply (@lexes_cons MDiv [47%N] rest ts); auto. constructor. destruct rest; simpl; auto.
Qed.
Lemma lexes_add b rest ts : lexes rest ts -> lexes (add_char b :: rest) ((if b : bool then MAdd else MSub, 1%N) :: ts).
Proof.
  intros H. destruct b; simpl.
  - apply (@lexes_cons MAdd [43%N] rest ts); auto. constructor. destruct rest; simpl; auto.
  - apply (@lexes_cons MSub [45%N] rest ts); auto. constructor. destruct rest; simpl; auto.
Qed.
Lemma lexes_factors l : forall rest ts, Forall (fun '(ws, _, v) => spaces ws /\ operand_ok v) l -> starts_with not_number rest -> lexes rest ts ->
  let text := flat_map (fun '(ws, b, v) => ws ++ mul_char b :: operand_text v) l in
  starts_with not_number (text ++ rest) /\ lexes (text ++ rest) (flat_map factor_tokens l ++ ts).
Proof.
  induction l as [|[[ws b] v] l IH]; intros rest ts Hl Hr H; simpl; auto. inversion Hl as [|? ? HH Hl']; subst. cbn beta iota in HH. destruct HH as [H1 H2].
  destruct (IH rest ts Hl' Hr H) as [I1 I2]. rewrite <- !app_assoc. cbn [app]. rewrite <- ?app_assoc. split.
  - apply space_starts; auto. destruct b; reflexivity.
  - apply lexes_space; auto; [destruct b; reflexivity|]. apply lexes_mul, lexes_operand; auto.
Qed.
Lemma lexes_product p rest ts : product_ok p -> starts_with not_number rest -> starts_with not_space rest -> lexes rest ts ->
  lexes (product_text p ++ rest) (product_tokens p ++ ts).
Proof.
  intros (H1 & H2 & H3) H4 H5 H. unfold product_text, product_tokens. rewrite <- !app_assoc.
  destruct (lexes_factors (p_rest p) (p_space p ++ rest) (space_tokens (p_space p) ++ ts)) as [A B]; auto.
  - apply space_starts; auto.
  - apply lexes_space; auto.
  - apply lexes_operand; auto.
Qed.
Lemma lexes_sum e : sum_ok e -> lexes (sum_text e) (sum_tokens e).
Proof.
  intros [H1 H2]. unfold sum_text, sum_tokens.
  assert (G : let text := flat_map (fun '(b, p) => add_char b :: product_text p) (s_rest e) in
     starts_with not_number text /\ starts_with not_space text /\ lexes text (flat_map term_tokens (s_rest e))).
  { induction H2 as [|[b p] l Hp Hl (I1 & I2 & I3)]; simpl. { repeat split. constructor. }
    split; [destruct b; reflexivity|]. split; [destruct b; reflexivity|]. apply lexes_add, lexes_product; auto. }
  destruct G as (G1 & G2 & G3). apply lexes_product; auto.
Qed.

Lemma value_operand v rest : value (operand_tokens v ++ rest) (operand_tree v) rest.
Proof. unfold operand_tokens, operand_tree. rewrite <- app_assoc, <- space_leaf. constructor. auto. Qed.
Lemma factors_operations l ws rest : not_blank rest -> (forall t r, rest = t :: r -> ~ In (fst t) [MMul; MDiv]) -> forall acc,
  operations [MMul; MDiv] value acc (flat_map factor_tokens l ++ space_tokens ws ++ rest)
    (fold_left (fun acc '(ws, b, v) => [GNode MOperation (acc ++ space_tree ws ++ GTok (if b : bool then MMul else MDiv) 1 :: operand_tree v)]) l acc
       ++ space_tree ws) rest.
Proof.
  intros N1 N2. induction l as [|[[w b] v] l IH]; intros acc; simpl.
  - rewrite <- space_leaf. constructor; auto.
  - rewrite <- !app_assoc. cbn [app]. rewrite <- ?app_assoc. eapply operations_more with (ts := operand_tree v); auto.
    + destruct b; discriminate.
    + destruct b; simpl; auto.
    + apply value_operand.
    + rewrite space_leaf. change (leaf (if b then MMul else MDiv, 1%N)) with (@GTok msyntax (if b then MMul else MDiv) 1). apply IH.
Qed.
Lemma product_of_tokens p rest : not_blank rest -> (forall t r, rest = t :: r -> ~ In (fst t) [MMul; MDiv]) ->
  product_of (product_tokens p ++ rest) (product_tree p) rest.
Proof.
  intros N1 N2. exists (operand_tree (p_first p)), (flat_map factor_tokens (p_rest p) ++ space_tokens (p_space p) ++ rest). split.
  - unfold product_tokens. rewrite <- !app_assoc. apply value_operand.
  - apply factors_operations; auto.
Qed.
Lemma sum_of_tokens e : sum_of (sum_tokens e) (sum_tree e) [].
Proof.
  assert (N : forall l, not_blank (flat_map term_tokens l) /\ (forall t r, flat_map term_tokens l = t :: r -> ~ In (fst t) [MMul; MDiv])).
  { intros [|[b p] l]; simpl; split; auto; try discriminate.
    - apply not_blank_cons. destruct b; discriminate.
    - intros t r E. injection E as <- _. simpl. destruct b; intuition discriminate. }
  exists (product_tree (s_first e)), (flat_map term_tokens (s_rest e)). split.
  - apply product_of_tokens; apply N.
  - unfold sum_tree. generalize (product_tree (s_first e)) as acc. induction (s_rest e) as [|[b p] l IH]; intros acc.
    + simpl. pose proof (@operations_stop [MAdd; MSub] product_of acc [] []) as H. simpl in H. rewrite app_nil_r in H. apply H; auto. discriminate.
    + simpl. pose proof (@operations_more [MAdd; MSub] product_of acc [] (if b then MAdd else MSub, 1%N) (product_tokens p ++ flat_map term_tokens l)
        (product_tree p) (flat_map term_tokens l)) as H. simpl in H. apply H; auto.
      * destruct b; discriminate.
      * destruct b; simpl; auto.
      * apply product_of_tokens; apply N.
Qed.

(** ** Theorems. *)

(** The lexer cuts every source into lexemes, each as long as possible, and there is only one way to do so. *)
Theorem C49_lexer : forall source ts, lexes source ts <-> ts = math_lexer source.
Proof.
  intros source ts. split. { intros H. symmetry. apply lexer_lexes. auto. }
  intros ->. destruct (lexes_total source) as (ts & H). rewrite (lexer_lexes _ _ H). auto.
Qed.
Print Assumptions C49_lexer.

(** Every source is parsed (no other error than Overflow, no endless loop), into the one forest the
    grammar gives for its tokens; the tokens of the tree are the tokens of the source up to those left. *)
Theorem C49_parses : forall F source, vec_flavor F -> fl_index F <> IxEmpty ->
  exists forest left, sum_of (math_lexer source) forest left /\
    (forall forest' left', sum_of (math_lexer source) forest' left' -> forest' = forest /\ left' = left) /\
    flat_map leaves forest ++ left = math_lexer source /\
    yields F (math_program F source) [GNode MRoot forest].
Proof.
  intros F source HF HE. destruct (parse_yields F HF HE (math_lexer source)) as (out & rest & H1 & H2 & H3). exists out, rest. split; auto. split; auto.
  intros f' l' H. destruct (sum_functional _ _ _ _ _ H H1) as [-> ->]. auto.
Qed.
Print Assumptions C49_parses.

(** Arithmetic expressions get their trees. *)
Theorem C49_expressions : forall F e, vec_flavor F -> fl_index F <> IxEmpty -> sum_ok e ->
  yields F (math_program F (sum_text e)) [GNode MRoot (sum_tree e)].
Proof.
  intros F e HF HE He. destruct (C49_parses F (sum_text e) HF HE) as (out & rest & H1 & H2 & H3 & H4).
  rewrite (lexer_lexes _ _ (lexes_sum e He)) in *. destruct (H2 _ _ (sum_of_tokens e)) as [<- <-]. exact H4.
Qed.
Print Assumptions C49_expressions.

(** The text of ["1 2"] is not all in the tree: the parser stops at what it does not expect. *)
Theorem C49_lossless_refuted : ~ (forall source forest left, sum_of (math_lexer source) forest left -> left = []).
Proof.
  intros H.
  assert (E : math_lexer [49; 32; 50]%N = [(MNumber, 1); (MWhitespace, 1); (MNumber, 1)]%N) by reflexivity.
  assert (G : sum_of (math_lexer [49; 32; 50]%N) [GTok MNumber 1; GTok MWhitespace 1] [(MNumber, 1)]%N).
  { rewrite E. exists [GTok MNumber 1; GTok MWhitespace 1], [(MNumber, 1%N)]. split.
    - exists [GTok MNumber 1], [(MWhitespace, 1%N); (MNumber, 1%N)]. split.
      + apply (@value_number [] 1 [(MWhitespace, 1%N); (MNumber, 1%N)]). constructor.
      + apply (@operations_stop _ _ [GTok MNumber 1] [(MWhitespace, 1%N)] [(MNumber, 1%N)]).
        * repeat constructor.
        * apply not_blank_cons. discriminate.
        * intros t r Ht. injection Ht as <- _. simpl. intuition discriminate.
    - apply (@operations_stop _ _ [GTok MNumber 1; GTok MWhitespace 1] [] [(MNumber, 1%N)]).
      + constructor.
      + apply not_blank_cons. discriminate.
      + intros t r Ht. injection Ht as <- _. simpl. intuition discriminate. }
  specialize (H _ _ _ G). discriminate.
Qed.
Print Assumptions C49_lossless_refuted.

(** [1 + 2*3 -4.5] (with an ideographic space). *)
Definition demo_sum : sum :=
  Sum (Product (Operand [] [49]%N) [] [32]%N)
      [(true, Product (Operand [12288]%N [50]%N) [([], true, Operand [] [51]%N)] [32]%N); (false, Product (Operand [] [52; 46; 53]%N) [] [])].
Example C49_inhabited : sum_ok demo_sum /\
  sum_text demo_sum = [49; 32; 43; 12288; 50; 42; 51; 32; 45; 52; 46; 53]%N /\
  sum_tree demo_sum =
    [GNode MOperation
      [GNode MOperation
         [GTok MNumber 1; GTok MWhitespace 1; GTok MAdd 1;
          GNode MOperation [GTok MWhitespace 3; GTok MNumber 1; GTok MMul 1; GTok MNumber 1]; GTok MWhitespace 1];
       GTok MSub 1; GTok MNumber 3]] /\
  (exists t, math_program flavor_default (sum_text demo_sum) = Ok t) /\
  (exists t, math_program flavor_default [40; 50]%N = Ok t).
Proof.
  split.
  { unfold sum_ok, product_ok, operand_ok, spaces. simpl. repeat split; auto; repeat constructor; simpl; eauto 10; repeat eexists. }
  split; [reflexivity|]. split; [reflexivity|]. split; vm_compute; eexists; reflexivity.
Qed.
