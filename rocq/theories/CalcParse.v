(** examples/calculator: the lexer and the parser. *)
From Coq Require Import Lia.
From Verif Require Import Base Index Tree Builder Hist Node Iter Print Spec SpecEq SpecProgram Text ClientMath ClientCalc SpecCalc ClientFacts.

(** ** Strings. *)
Lemma str_len_app a b : str_len (a ++ b) = (str_len a + str_len b)%N.
Proof. induction a; simpl; auto. rewrite IHa. lia. Qed.
Lemma len_pos c : (0 < len_utf8 c)%N.
Proof. unfold len_utf8. destruct (c <? 128)%N, (c <? 2048)%N, (c <? 65536)%N; lia. Qed.
Lemma str_from_app pre : forall suf, str_from (pre ++ suf) (str_len pre) = Some suf.
Proof.
  induction pre as [|c pre IH]; intros suf. { destruct suf; reflexivity. }
  cbn [app str_from str_len fold_right]. pose proof (len_pos c). fold (str_len pre).
  destruct (N.eqb_spec (len_utf8 c + str_len pre) 0); [lia|].
  destruct (N.ltb_spec (len_utf8 c + str_len pre) (len_utf8 c)); [lia|]. rewrite N.add_comm, N.add_sub. apply IH.
Qed.
Lemma str_to_app pre : forall suf, str_to (pre ++ suf) (str_len pre) = Some pre.
Proof.
  induction pre as [|c pre IH]; intros suf. { destruct suf; reflexivity. }
  cbn [app str_to str_len fold_right]. pose proof (len_pos c). fold (str_len pre).
  destruct (N.eqb_spec (len_utf8 c + str_len pre) 0); [lia|].
  destruct (N.ltb_spec (len_utf8 c + str_len pre) (len_utf8 c)); [lia|]. rewrite N.add_comm, N.add_sub, IH. auto.
Qed.
Lemma str_get_app pre mid post : str_get (pre ++ mid ++ post) (str_len pre, str_len pre + str_len mid)%N = Some mid.
Proof.
  unfold str_get. destruct (N.ltb_spec (str_len pre + str_len mid) (str_len pre)); [lia|].
  rewrite str_from_app. replace (str_len pre + str_len mid - str_len pre)%N with (str_len mid) by lia. apply str_to_app.
Qed.
Lemma take_prefix cond (s : str) : exists a rest, s = a ++ rest /\ forallb cond a = true /\ match rest with [] => True | c :: _ => cond c = false end.
Proof.
  induction s as [|c s (a & rest & -> & H1 & H2)]. { exists [], []. auto. }
  destruct (cond c) eqn:E. - exists (c :: a), rest. simpl. rewrite E. auto. - exists [], (c :: a ++ rest). auto.
Qed.

(** ** Lexemes. *)
Lemma punct_eq c k : punct c = Some k ->
  (c = 43 /\ k = CPlus \/ c = 45 /\ k = CMinus \/ c = 42 /\ k = CMul \/ c = 47 /\ k = CDiv \/ c = 94 /\ k = CPow \/
   c = 40 /\ k = COpenParen \/ c = 41 /\ k = CCloseParen)%N.
Proof.
  intros H. destruct (N.eq_dec c 43) as [->|E1]; [injection H; auto|]. destruct (N.eq_dec c 45) as [->|E2]; [injection H; auto|].
  destruct (N.eq_dec c 42) as [->|E3]; [injection H; auto|]. destruct (N.eq_dec c 47) as [->|E4]; [injection H; auto 10|].
  destruct (N.eq_dec c 94) as [->|E5]; [injection H; auto 10|]. destruct (N.eq_dec c 40) as [->|E6]; [injection H; auto 10|].
  destruct (N.eq_dec c 41) as [->|E7]; [injection H; auto 10|].
  exfalso. revert H. unfold punct. destruct c as [|p]; [discriminate|]. 
  repeat (destruct p as [p|p|]; try discriminate; try lia).
Qed.
Lemma punct_none c : punct c = None ->
  ((c =? 43) = false /\ (c =? 45) = false /\ (c =? 42) = false /\ (c =? 47) = false /\ (c =? 94) = false /\ (c =? 40) = false /\ (c =? 41) = false)%N.
Proof. intros H. repeat split; apply N.eqb_neq; intros ->; discriminate. Qed.
Lemma cdigit_range c : is_digit c = true -> (48 <= c <= 57)%N.
Proof. unfold is_digit. intros H. apply andb_prop in H as [H1 H2]. apply N.leb_le in H1, H2. lia. Qed.
Lemma cdigit_not_space c : is_digit c = true -> is_whitespace c = false.
Proof.
  intros H. apply cdigit_range in H. unfold is_whitespace.
  repeat match goal with |- context [(?a <=? ?b)%N] => destruct (N.leb_spec a b); try lia end;
  repeat match goal with |- context [(?a =? ?b)%N] => destruct (N.eqb_spec a b); try lia end; auto.
Qed.
Lemma cdigit_not_punct c : is_digit c = true -> punct c = None.
Proof.
  intros H. apply cdigit_range in H. destruct (punct c) eqn:E; auto. apply punct_eq in E. exfalso. lia.
Qed.
Lemma punct_not_space c k : punct c = Some k -> is_whitespace c = false /\ is_digit c = false.
Proof.
  intros H. apply punct_eq in H. repeat (destruct H as [[-> _]|H]; [split; reflexivity|]). destruct H as [-> _]. split; reflexivity.
Qed.
Lemma punct_ends c k rest : punct c = Some k -> cends k rest.
Proof.
  intros H. apply punct_eq in H. destruct rest; simpl; auto. repeat (destruct H as [[_ ->]|H]; [exact I|]). destruct H as [_ ->]. exact I.
Qed.
Lemma some_clexeme s : s <> [] -> exists k a rest, s = a ++ rest /\ clexeme k a /\ cends k rest.
Proof.
  destruct s as [|c s]; [congruence|intros _].
  destruct (is_whitespace c) eqn:E0.
  { destruct (take_prefix is_whitespace s) as (a & rest & -> & H1 & H2). exists CWhitespace, (c :: a), rest. repeat split; auto. constructor; auto. }
  destruct (punct c) as [k|] eqn:E1.
  { exists k, [c], s. split; auto. split; [constructor; auto|]. eapply punct_ends; eauto. }
  destruct (is_digit c) eqn:E2.
  { destruct (take_prefix is_digit s) as (a & rest & -> & H1 & H2). exists CNumber, (c :: a), rest. repeat split; auto. constructor; auto. }
  destruct (take_prefix (fun c => negb (is_whitespace c)) s) as (a & rest & -> & H1 & H2). exists CError, (c :: a), rest. split; [auto|]. split.
  - constructor; auto.
  - destruct rest; simpl; auto. apply negb_false_iff in H2. auto.
Qed.
Lemma clexeme_nonempty k a : clexeme k a -> a <> [].
Proof. intros []; discriminate. Qed.
Lemma clexes_total s : exists ts, clexes s ts.
Proof.
  remember (length s) as n eqn:E. assert (L : length s <= n) by lia. clear E. revert s L.
  induction n as [|n IH]; intros s L.
  - destruct s; [|simpl in L; lia]. exists []. constructor.
  - destruct s as [|c s]; [exists []; constructor|]. destruct (some_clexeme (c :: s)) as (k & a & rest & E & H1 & H2); [discriminate|].
    rewrite E in *. destruct (IH rest) as (ts & H). { pose proof (clexeme_nonempty _ _ H1). destruct a; [congruence|]. rewrite app_length in L. simpl in L. lia. }
    eexists. econstructor; eauto.
Qed.
Lemma clexes_length s ts : clexes s ts -> length ts <= length s.
Proof.
  induction 1 as [|k a rest ts H1 H2 H IH]; auto. rewrite app_length. pose proof (clexeme_nonempty _ _ H1). destruct a; [congruence|]. simpl. lia.
Qed.
Lemma clexeme_real k a : clexeme k a -> k <> CEof.
Proof. intros [c s|c k0 H|c s|c s]; try discriminate. intros ->. apply punct_eq in H. intuition discriminate. Qed.
Lemma clexes_real s ts : clexes s ts -> Forall (fun t => fst t <> CEof) ts.
Proof. induction 1 as [|k a rest ts H1 H2 H IH]; constructor; auto. simpl. eapply clexeme_real; eauto. Qed.
Definition total_len (ts : list ctok) : N := fold_right (fun t n => snd t + n)%N 0%N ts.
Lemma clexes_total_len s ts : clexes s ts -> total_len ts = str_len s.
Proof. induction 1 as [|k a rest ts H1 H2 H IH]; auto. rewrite str_len_app. simpl. rewrite IH. auto. Qed.

(** ** What the grammar keeps: all the tokens, in order; how many nodes it makes. *)
Scheme cexpr_mind := Induction for cexpr Sort Prop
with ctail_mind := Induction for ctail Sort Prop.
Combined Scheme grammar_ind from cexpr_mind, ctail_mind.

Definition no_eof (ts : list ctok) : Prop := Forall (fun t => fst t <> CEof) ts.
Lemma real_app a b : real_tokens (a ++ b) = real_tokens a ++ real_tokens b.
Proof. unfold real_tokens. rewrite flat_map_app, filter_app. auto. Qed.
Lemma leaves_cleaf l : flat_map leaves (map cleaf l) = l.
Proof. induction l as [|[d n] l IH]; simpl; auto. rewrite IH. auto. Qed.
Lemma real_leaf l : no_eof l -> real_tokens (map cleaf l) = l.
Proof.
  unfold real_tokens. rewrite leaves_cleaf. induction 1 as [|[k n] l H1 H IH]; simpl; auto. simpl in H1.
  destruct (csyntax_eqb k CEof) eqn:E; simpl; [exfalso; destruct k; try discriminate; auto|]. rewrite IH. auto.
Qed.
Lemma total_app a b : total_len (a ++ b) = (total_len a + total_len b)%N.
Proof. induction a; simpl; auto. rewrite IHa. lia. Qed.
Lemma sizes_app {T} (a b : list (gtree T)) : sizes (a ++ b) = sizes a + sizes b.
Proof. unfold sizes. induction a; simpl; auto. rewrite IHa. lia. Qed.
Lemma sizes_leaf l : sizes (map cleaf l) = length l.
Proof. unfold sizes. induction l; simpl; auto. Qed.
Definition bit (b : bool) : nat := if b then 1 else 0.
Lemma real_operation op gs : real_tokens (operation_of op gs) = real_tokens gs.
Proof. destruct op; unfold real_tokens; simpl; auto. rewrite app_nil_r. auto. Qed.
Lemma leaves_operation op gs : flat_map leaves (operation_of op gs) = flat_map leaves gs.
Proof. destruct op; simpl; auto. rewrite app_nil_r. auto. Qed.
Lemma sizes_operation op gs : sizes (operation_of op gs) = sizes gs + bit op.
Proof. destruct op; simpl; [unfold sizes at 1; simpl; fold (sizes gs)|]; lia. Qed.
Lemma sizes_cons {T} (g : gtree T) gs : sizes (g :: gs) = size g + sizes gs. Proof. reflexivity. Qed.
Lemma sizes_nil {T} : sizes (@nil (gtree T)) = 0. Proof. reflexivity. Qed.
Lemma size_tok {T} (d : T) n : size (GTok d n) = 1. Proof. reflexivity. Qed.
Lemma size_cleaf t : size (cleaf t) = 1. Proof. reflexivity. Qed.
Lemma size_node {T} (d : T) gs : size (GNode d gs) = S (sizes gs). Proof. reflexivity. Qed.
Ltac sized := repeat rewrite ?sizes_app, ?sizes_cons, ?size_node, ?sizes_leaf, ?sizes_operation, ?sizes_nil, ?size_tok, ?size_cleaf, ?app_length in *; cbn [length bit] in *.
Lemma real_cons g gs : real_tokens (g :: gs) = real_tokens [g] ++ real_tokens gs.
Proof. apply (real_app [g] gs). Qed.
Lemma real_node d gs : real_tokens [GNode d gs] = real_tokens gs.
Proof. unfold real_tokens. simpl. rewrite app_nil_r. auto. Qed.
Lemma real_tok d n : d <> CEof -> real_tokens [GTok d n] = [(d, n)].
Proof. intros H. unfold real_tokens. simpl. destruct (csyntax_eqb d CEof) eqn:E; auto. exfalso. destruct d; try discriminate; auto. Qed.
Lemma real_next r : no_eof r -> real_tokens [cleaf (next_token r)] ++ tl r = r.
Proof. intros H. destruct r as [|[k n] r]; auto. inversion H; subst. cbn [next_token]. unfold cleaf. cbn [fst snd]. rewrite real_tok by auto. auto. Qed.
Lemma blanks_real l : Forall cblank l -> no_eof l.
Proof. apply Forall_impl. unfold cblank. intros t ->. discriminate. Qed.
Lemma no_eof_app a b : no_eof (a ++ b) <-> no_eof a /\ no_eof b. Proof. apply Forall_app. Qed.
Lemma no_eof_cons t b : no_eof (t :: b) <-> fst t <> CEof /\ no_eof b. Proof. apply Forall_cons_iff. Qed.

Definition leaf_total (gs : list (gtree csyntax)) : N := total_len (flat_map leaves gs).
Lemma lt_app a b : leaf_total (a ++ b) = (leaf_total a + leaf_total b)%N.
Proof. unfold leaf_total. rewrite flat_map_app, total_app. auto. Qed.
Lemma lt_leaf l : leaf_total (map cleaf l) = total_len l. Proof. unfold leaf_total. rewrite leaves_cleaf. auto. Qed.
Lemma lt_cons g gs : leaf_total (g :: gs) = (leaf_total [g] + leaf_total gs)%N. Proof. apply (lt_app [g] gs). Qed.
Lemma lt_node d gs : leaf_total [GNode d gs] = leaf_total gs. Proof. unfold leaf_total. simpl. rewrite app_nil_r. auto. Qed.
Lemma lt_tok d n : leaf_total [GTok d n] = n. Proof. unfold leaf_total. simpl. lia. Qed.
Lemma lt_operation op gs : leaf_total (operation_of op gs) = leaf_total gs. Proof. unfold leaf_total. rewrite leaves_operation. auto. Qed.
Lemma lt_next r : (leaf_total [cleaf (next_token r)] + total_len (tl r) = total_len r)%N.
Proof. destruct r as [|[k n] r]; auto. cbn [next_token]. unfold cleaf. cbn [fst snd]. rewrite lt_tok. auto. Qed.

Lemma grammar_facts :
  (forall min ts out rest, cexpr min ts out rest ->
    (no_eof ts -> no_eof rest /\ real_tokens out ++ rest = ts) /\ (leaf_total out + total_len rest = total_len ts)%N /\
    sizes out + 5 * length rest <= 5 * length ts + 2) /\
  (forall min op acc ts out op' rest, ctail min op acc ts out op' rest ->
    (no_eof ts -> no_eof rest /\ real_tokens out ++ rest = real_tokens acc ++ ts) /\ (leaf_total out + total_len rest = leaf_total acc + total_len ts)%N /\
    sizes out + 5 * length rest + bit op' <= sizes acc + 5 * length ts + bit op).
Proof.
  apply grammar_ind.
  - intros min ws n r out op rest B Ht (I1 & I2 & I3). split; [|split].
    + rewrite no_eof_app, no_eof_cons. intros (H1 & _ & H2). destruct (I1 H2) as [J1 J2]. split; auto.
      rewrite real_app, real_operation, real_leaf, <- app_assoc, J2 by (auto using blanks_real). rewrite real_node, real_tok by discriminate. auto.
    + rewrite lt_app, lt_leaf, lt_operation, total_app. simpl total_len. fold (total_len r). rewrite lt_node, lt_tok in I2. lia.
    + sized; first [lia | destruct r2; simpl in *; lia | destruct r; simpl in *; lia].
  - intros min ws n r1 inner ws2 m r2 out op rest B B2 He (I1 & I2 & I3) Ht (J1 & J2 & J3). split; [|split].
    + rewrite no_eof_app, no_eof_cons. intros (H1 & _ & H2). destruct (I1 H2) as [K1 K2]. rewrite no_eof_app, no_eof_cons in K1. destruct K1 as (_ & _ & K1).
      destruct (J1 K1) as [L1 L2]. split; auto. rewrite real_app, real_operation, real_leaf, <- app_assoc, L2 by (auto using blanks_real).
      rewrite real_cons, real_tok, (real_cons (GNode _ _)), real_node, real_app, real_leaf, real_tok by (auto using blanks_real; discriminate).
      rewrite <- K2. rewrite <- !app_assoc. auto.
    + rewrite lt_app, lt_leaf, lt_operation, total_app. simpl total_len. fold (total_len r1). rewrite lt_cons, lt_tok, lt_cons, lt_node, lt_app, lt_leaf, lt_tok in J2.
      rewrite total_app in I2. simpl total_len in I2. fold (total_len r2) in I2. lia.
    + sized; first [lia | destruct r2; simpl in *; lia | destruct r; simpl in *; lia].
  - intros min ws n r1 inner ws2 r2 B B2 N1 He (I1 & I2 & I3) Hc. split; [|split].
    + rewrite no_eof_app, no_eof_cons. intros (H1 & _ & H2). destruct (I1 H2) as [K1 K2]. rewrite no_eof_app in K1. destruct K1 as (_ & K1). split.
      { destruct r2; auto. apply no_eof_cons in K1. tauto. }
      rewrite real_app, real_leaf by (auto using blanks_real).
      rewrite real_cons, real_tok, (real_cons (GNode _ _)), real_node, real_app, real_leaf, real_node by (auto using blanks_real; discriminate).
      rewrite <- !app_assoc. f_equal. cbn [app]. f_equal. rewrite (real_next r2 K1). auto.
    + rewrite lt_app, lt_leaf, total_app. simpl total_len. fold (total_len r1). rewrite lt_cons, lt_tok, lt_cons, lt_node, lt_app, lt_leaf, lt_node.
      rewrite total_app in I2. pose proof (lt_next r2). lia.
    + sized; first [lia | destruct r2; simpl in *; lia | destruct r; simpl in *; lia].
  - intros min ws r B N1 H1 H2. split; [|split].
    + rewrite no_eof_app. intros (H3 & H4). split. { destruct r; auto. apply no_eof_cons in H4. tauto. }
      rewrite real_app, real_leaf, real_node, <- app_assoc, real_next by (auto using blanks_real). auto.
    + rewrite lt_app, lt_leaf, lt_node, total_app. pose proof (lt_next r). lia.
    + sized; first [lia | destruct r2; simpl in *; lia | destruct r; simpl in *; lia].
  - intros min op acc ws r B N1 Hj. split; [|split].
    + rewrite no_eof_app. intros (H3 & H4). split; auto. rewrite real_app, real_leaf, <- app_assoc by (auto using blanks_real). auto.
    + rewrite lt_app, lt_leaf, total_app. lia.
    + sized; first [lia | destruct r2; simpl in *; lia | destruct r; simpl in *; lia].
  - intros min op acc ws k n r1 lp rp e r2 out op' rest B Hb Hm He (I1 & I2 & I3) Ht (J1 & J2 & J3). split; [|split].
    + rewrite no_eof_app, no_eof_cons. simpl fst. intros (H1 & H2 & H3). destruct (I1 H3) as [K1 K2]. destruct (J1 K1) as [L1 L2]. split; auto.
      rewrite L2, !real_app, real_leaf, real_cons, real_node, real_tok by (auto using blanks_real). rewrite <- K2, <- !app_assoc. auto.
    + rewrite total_app. simpl total_len. fold (total_len r1). rewrite !lt_app, lt_leaf, lt_cons, lt_node, lt_tok in J2. lia.
    + sized; first [lia | destruct r2; simpl in *; lia | destruct r; simpl in *; lia].
Qed.
Definition number_first (ts : list ctok) : Prop := fst (next_token ts) = CNumber.
Lemma number_first_size min ts out rest : cexpr min ts out rest -> number_first ts -> sizes out + 5 * length rest + 3 <= 5 * length ts.
Proof.
  assert (W : forall ws (t : ctok) r, Forall cblank ws -> number_first (ws ++ t :: r) -> ws = [] /\ fst t = CNumber).
  { intros [|t' ws] t r B H; auto. inversion B; subst. exfalso. unfold cblank, number_first in *. simpl in H. congruence. }
  intros H N. destruct H as [min ws n r out op rest B Ht|min ws n r1 inner ws2 m r2 out op rest B B2 He Ht|min ws n r1 inner ws2 r2 B B2 N1 He Hc|min ws r B N1 H1 H2].
  - destruct (W _ _ _ B N) as [-> _]. destruct (proj2 grammar_facts _ _ _ _ _ _ _ Ht) as (_ & _ & G). sized. change (sizes (@nil (gtree csyntax))) with 0 in G. lia.
  - destruct (W _ _ _ B N) as [_ E]. discriminate.
  - destruct (W _ _ _ B N) as [_ E]. discriminate.
  - exfalso. destruct r as [|t r].
    + rewrite app_nil_r in N. destruct ws as [|t ws]; [discriminate|]. inversion B; subst. unfold cblank, number_first in *. simpl in N. congruence.
    + destruct (W _ _ _ B N) as [_ E]. auto.
Qed.
Lemma root_facts ts out : croot ts out ->
  (no_eof ts -> real_tokens out = ts) /\ leaf_total out = total_len ts /\ sizes out <= 5 * length ts + 2 /\ (number_first ts -> sizes out + 1 <= 5 * length ts).
Proof.
  induction 1 as [ts out ws He B|ts out ws sk r outs He B N1 N2 K1 K2 H (I1 & I2 & I3 & I4)];
    destruct (proj1 grammar_facts _ _ _ _ He) as (G1 & G2 & G3); pose proof (number_first_size _ _ _ _ He) as G4.
  - split; [|split; [|split]].
    + intros Hn. destruct (G1 Hn) as [_ <-]. rewrite real_app, real_leaf by (auto using blanks_real). auto.
    + rewrite lt_app, lt_leaf. auto.
    + rewrite sizes_app, sizes_leaf. lia.
    + intros Hf. specialize (G4 Hf). rewrite sizes_app, sizes_leaf. lia.
  - assert (D : sizes outs <= 5 * length r + 2 /\ 1 <= length sk \/ sizes outs + 1 <= 5 * length r).
    { destruct sk as [|t sk]; [|left; simpl; split; lia]. right. destruct r as [|t r]; [exfalso; apply N2; reflexivity|]. apply I4. apply (K2 _ _ eq_refl). }
    split; [|split; [|split]].
    + intros Hn. destruct (G1 Hn) as [Hr E]. rewrite !no_eof_app in Hr. destruct Hr as (E1 & E2 & E3). rewrite <- E.
      rewrite !real_app, real_cons, real_node, !real_leaf, I1 by auto. auto.
    + rewrite !lt_app, lt_leaf, lt_cons, lt_node, lt_leaf. rewrite !total_app in G2. lia.
    + rewrite !sizes_app, sizes_leaf, sizes_cons, size_node, sizes_leaf. rewrite !app_length in G3. lia.
    + intros Hf. specialize (G4 Hf). rewrite !sizes_app, sizes_leaf, sizes_cons, size_node, sizes_leaf. rewrite !app_length in *. lia.
Qed.

Section Lexer.
Variable source : str.
Lemma peek_at pre suf : source = pre ++ suf -> lx_peek source (str_len pre) = hd_error suf.
Proof. intros ->. unfold lx_peek. rewrite str_from_app. auto. Qed.
Lemma step_at pre c suf : source = pre ++ c :: suf -> lx_step source (str_len pre) = str_len (pre ++ [c]).
Proof.
  intros E. unfold lx_step. rewrite (peek_at pre (c :: suf) E). simpl. rewrite str_len_app. simpl. lia.
Qed.
Lemma while_at cond a : forall pre rest fuel, source = pre ++ a ++ rest -> forallb cond a = true ->
  match rest with [] => True | c :: _ => cond c = false end -> length a < fuel ->
  lx_while_loop source fuel cond (str_len pre) = Ok (str_len (pre ++ a)).
Proof.
  induction a as [|c a IH]; intros pre rest fuel E H1 H2 L; (destruct fuel as [|fuel]; [inversion L|]); cbn [lx_while_loop].
  - rewrite (peek_at pre rest E), app_nil_r. destruct rest as [|c rest]; auto. simpl. rewrite H2. auto.
  - rewrite (peek_at pre (c :: a ++ rest) E). simpl in H1. apply andb_prop in H1 as [H0 H1]. cbn [hd_error]. rewrite H0. simpl negb. cbn iota.
    rewrite (step_at pre c (a ++ rest) E). rewrite (IH (pre ++ [c]) rest fuel); auto.
    + rewrite <- app_assoc. auto.
    + rewrite <- app_assoc. auto.
    + simpl in L. lia.
Qed.
Lemma while_src cond pre a rest : source = pre ++ a ++ rest -> forallb cond a = true ->
  match rest with [] => True | c :: _ => cond c = false end -> lx_while source cond (str_len pre) = Ok (str_len (pre ++ a)).
Proof. intros E H1 H2. unfold lx_while. eapply while_at; eauto. rewrite E, !app_length. lia. Qed.
Lemma next_at pre k a rest : source = pre ++ a ++ rest -> clexeme k a -> cends k rest ->
  lx_next source (str_len pre) = Ok (str_len (pre ++ a), Some (k, str_len a)).
Proof.
  intros E H He.
  assert (D : (str_len (pre ++ a) - str_len pre = str_len a)%N) by (rewrite str_len_app; lia).
  assert (P : forall c, a = [c] -> lx_step source (str_len pre) = str_len (pre ++ a)).
  { intros c ->. eapply step_at. exact E. }
  unfold lx_next. rewrite (peek_at pre _ E).
  destruct H as [c s H1 H2|c k H|c s H1 H2|c s H1 H2 H3 H4]; cbn [app hd_error].
  - rewrite H1, (step_at pre c (s ++ rest) E). rewrite (while_src is_whitespace (pre ++ [c]) s rest); auto.
    + cbn [bind]. rewrite <- app_assoc. cbn [app]. rewrite D. auto.
    + rewrite <- app_assoc. auto.
  - destruct (punct_not_space c k H) as [-> Hd]. specialize (P c eq_refl). rewrite P. apply punct_eq in H.
    repeat (destruct H as [[-> ->]|H]; [simpl; rewrite D; auto|]). destruct H as [-> ->]. simpl. rewrite D. auto.
  - rewrite (cdigit_not_space c H1). destruct (punct_none c (cdigit_not_punct c H1)) as (-> & -> & -> & -> & -> & -> & ->). rewrite H1.
    rewrite (step_at pre c (s ++ rest) E). rewrite (while_src is_digit (pre ++ [c]) s rest); auto.
    + cbn [bind]. rewrite <- app_assoc. cbn [app]. rewrite D. auto.
    + rewrite <- app_assoc. auto.
  - rewrite H1. destruct (punct_none c H3) as (-> & -> & -> & -> & -> & -> & ->). rewrite H2.
    rewrite (while_src (fun c => negb (is_whitespace c)) pre (c :: s) rest); auto.
    + cbn [bind]. rewrite D. auto.
    + simpl. rewrite H1. auto.
    + destruct rest; auto. simpl in He. rewrite He. auto.
Qed.
Lemma next_end pre : source = pre -> lx_next source (str_len pre) = Ok (str_len pre, None).
Proof. intros E. unfold lx_next. rewrite (peek_at pre []); auto. rewrite app_nil_r. auto. Qed.

(** ** Where the parser is. *)
Definition whole (s : str) : Prop := source = s.
Definition at_ (cur : N) (buf : option ctok) (ts : list ctok) : Prop :=
  length ts <= length source /\
  exists pre suf ts', whole (pre ++ suf) /\ cur = str_len pre /\ clexes suf ts' /\
    ts = match buf with Some t => t :: ts' | None => ts' end /\ (forall t, buf = Some t -> ~ cblank t).
Definition ready (cur : N) (ts : list ctok) : Prop := at_ cur (hd_error ts) ts.

Lemma csplit_blank (ts : list ctok) : exists ws rest, ts = ws ++ rest /\ Forall cblank ws /\ cnot_blank rest.
Proof.
  induction ts as [|[s n] ts (ws & rest & -> & H1 & H2)]. { exists [], []. repeat split; auto. intros t r E. discriminate. }
  assert (D : s = CWhitespace \/ s <> CWhitespace) by (destruct s; auto; right; discriminate). destruct D as [->|D].
  - exists ((CWhitespace, n) :: ws), rest. repeat split; auto. constructor; auto. reflexivity.
  - exists [], ((s, n) :: ws ++ rest). repeat split; auto. intros t r E. injection E as <- _. exact D.
Qed.

Variable F : flavor.
Notation does := (@does csyntax F _).

Lemma fill_none ws : forall rest cur, at_ cur None (ws ++ rest) -> Forall cblank ws -> cnot_blank rest ->
  exists cur', ready cur' rest /\
    forall fuel w c, length ws + 1 < fuel -> c_fill_loop source F fuel (CParser cur w None) =
      does w (toks ws) c (fun w => Ok (CParser cur' w (hd_error rest))).
Proof.
  induction ws as [|[s n] ws IH]; intros rest cur (HL & pre & suf & ts' & E1 & -> & E3 & E4 & E5) B N1.
  - simpl in E4. subst ts'. destruct rest as [|t rest].
    + exists (str_len pre). split. { split; auto. exists pre, suf, []. auto. }
      intros fuel w c L. destruct fuel as [|fuel]; [lia|]. cbn [c_fill_loop cp_buf cp_cursor cp_world].
      inversion E3; subst. rewrite app_nil_r in *. rewrite (next_end pre E1). reflexivity.
    + inversion E3 as [|k a rest' ts H1 H2 H3]; subst. exists (str_len (pre ++ a)). split.
      { split; auto. exists (pre ++ a), rest', rest. rewrite <- app_assoc. repeat split; auto. intros t Et. injection Et as <-. eapply N1; eauto. }
      intros fuel w c L. destruct fuel as [|fuel]; [lia|]. cbn [c_fill_loop cp_buf cp_cursor cp_world].
      rewrite (next_at pre k a rest' E1 H1 H2). cbn [bind]. specialize (N1 _ _ eq_refl). destruct fuel as [|fuel]; [simpl in L; lia|].
      change (toks []) with (@PDone csyntax). rewrite does_done. destruct k; try reflexivity. exfalso. apply N1. reflexivity.
  - inversion B as [|? ? Hb B']; subst. unfold cblank in Hb. simpl in Hb. subst s.
    simpl in E3. inversion E3 as [|k a rest' ts H1 H2 H3]; subst.
    destruct (IH rest (str_len (pre ++ a))) as (cur' & R & G); auto.
    { split; [rewrite app_length in *; simpl in HL; rewrite ?app_length in HL; lia|].
      exists (pre ++ a), rest', (ws ++ rest). rewrite <- app_assoc. repeat split; auto. }
    exists cur'. split; auto. intros fuel w c L. simpl in L. destruct fuel as [|fuel]; [lia|]. cbn [c_fill_loop cp_buf cp_cursor cp_world].
    rewrite (next_at pre _ a rest' E1 H1 H2). cbn [bind]. unfold c_call. cbn [cp_world cp_buf cp_cursor]. rewrite bind_bind, does_toks_cons.
    cbn [fst snd]. apply bind_ext. intros w1. cbn [bind]. apply G. lia.
Qed.
Lemma fill_does ws rest cur buf : at_ cur buf (ws ++ rest) -> Forall cblank ws -> cnot_blank rest ->
  exists cur', ready cur' rest /\
    forall w c, c_fill source F (CParser cur w buf) = does w (toks ws) c (fun w => Ok (CParser cur' w (hd_error rest))).
Proof.
  intros H B N1. destruct buf as [t|].
  - pose proof H as (HL & pre & suf & ts' & E1 & E2 & E3 & E4 & E5). specialize (E5 _ eq_refl).
    destruct ws as [|t' ws]. 2: { exfalso. injection E4 as -> _. inversion B; subst; auto. }
    simpl in E4. subst rest. exists cur. split. { exact H. } intros w c. reflexivity.
  - destruct (fill_none ws rest cur H B N1) as (cur' & R & G). exists cur'. split; auto. intros w c. apply G.
    destruct H as [HL (pre & suf & ts' & E1 & E2 & E3 & E4 & E5)]. rewrite app_length in HL. lia.
Qed.
Lemma peek_does ws rest cur buf : at_ cur buf (ws ++ rest) -> Forall cblank ws -> cnot_blank rest ->
  exists cur', ready cur' rest /\
    forall w c, c_peek source F (CParser cur w buf) = does w (toks ws) c (fun w => Ok (CParser cur' w (hd_error rest), next_token rest)).
Proof.
  intros H B N1. destruct (fill_does ws rest cur buf H B N1) as (cur' & R & G). exists cur'. split; auto. intros w c. unfold c_peek.
  rewrite (G w c), does_bind. apply does_ext. intros w1. cbn [bind cp_buf]. destruct rest; auto.
Qed.
Lemma ready_not_blank cur rest : ready cur rest -> cnot_blank rest.
Proof. intros (HL & pre & suf & ts' & E1 & E2 & E3 & E4 & E5) t r ->. apply E5. auto. Qed.
Lemma ready_peek cur rest w : ready cur rest -> c_peek source F (CParser cur w (hd_error rest)) = Ok (CParser cur w (hd_error rest), next_token rest).
Proof.
  intros R. destruct rest as [|t rest]; [|reflexivity].
  destruct R as (HL & pre & suf & ts' & E1 & E2 & E3 & E4 & E5). simpl in E4. subst. inversion E3; subst.
  unfold c_peek, c_fill. cbn [c_fill_loop cp_buf cp_cursor cp_world hd_error]. rewrite app_nil_r in *. rewrite (next_end pre E1). reflexivity.
Qed.
Lemma ready_step cur rest : ready cur rest -> at_ cur None (tl rest) /\
  forall w, c_step source F (CParser cur w (hd_error rest)) = Ok (CParser cur w None, next_token rest).
Proof.
  intros R. split.
  - destruct rest as [|t rest]; auto. destruct R as (HL & pre & suf & ts' & E1 & E2 & E3 & E4 & E5). simpl in E4. injection E4 as <-.
    split; [simpl in *; lia|]. exists pre, suf, rest. repeat split; auto. discriminate.
  - intros w. unfold c_step. rewrite (ready_peek _ _ w R). auto.
Qed.

(** ** The primitives of the parser as programs. *)
Lemma token_does cur rest w c : ready cur rest ->
  c_token source F (CParser cur w (hd_error rest)) =
  does w (PTok (fst (next_token rest)) (snd (next_token rest)) PDone) c (fun w => Ok (CParser cur w None)).
Proof.
  intros R. destruct (ready_step cur rest R) as [_ G]. unfold c_token. rewrite G. cbn [bind]. unfold c_call. cbn [cp_world cp_buf cp_cursor].
  rewrite does_tok. auto.
Qed.
Lemma bump_does k cur rest w c : ready cur rest ->
  c_bump source F k (CParser cur w (hd_error rest)) =
  does w (PNode k (PTok (fst (next_token rest)) (snd (next_token rest)) PDone) PDone) c (fun w => Ok (CParser cur w None)).
Proof.
  intros R. destruct (ready_step cur rest R) as [_ G]. unfold c_bump. rewrite G. cbn [bind]. unfold c_call. cbn [cp_world cp_buf cp_cursor].
  rewrite does_node, bind_bind. apply bind_ext. intros w1. cbn [bind cp_world cp_buf cp_cursor]. rewrite does_tok, bind_bind.
  apply bind_ext. intros w2. cbn [bind cp_world cp_buf cp_cursor]. auto.
Qed.
Lemma csyntax_eqb_eq a b : csyntax_eqb a b = true <-> a = b.
Proof. destruct a, b; simpl; split; auto; discriminate. Qed.
Lemma c_op_binding k : c_op k = binding k. Proof. destruct k; auto. Qed.

Lemma trees_toks_leaf l acc : program_trees acc (toks l) = acc ++ map cleaf l.
Proof. apply trees_toks. Qed.

(** ** Expressions. *)
Definition runs (f : nat -> cparser -> result cparser) (n : nat) (ts : list ctok) (q : prog csyntax) (rest : list ctok) : Prop :=
  forall cur buf, at_ cur buf ts -> exists cur' buf', at_ cur' buf' rest /\
    forall fuel w c, n < fuel -> f fuel (CParser cur w buf) = does w q c (fun w => Ok (CParser cur' w buf')).
Definition expr_ok (n : nat) : Prop := forall ts min, length ts <= n ->
  exists out rest q, cexpr min ts out rest /\ length rest <= pred (length ts) /\
    scoped false q /\ program_trees [] q = out /\ runs (fun fuel => c_expr source F fuel min) n ts q rest.
Definition tail_ok (n : nat) : Prop := forall ts min op acc, length ts <= n ->
  exists out op' rest q, ctail min op acc ts out op' rest /\ length rest <= length ts /\
    scoped false q /\ program_trees acc q = out /\
    forall cur buf, at_ cur buf ts -> exists cur', ready cur' rest /\
      forall fuel w c, n < fuel -> c_expr_loop source F fuel min op (CParser cur w buf) =
        does w q c (fun w => Ok (CParser cur' w (hd_error rest), op')).

Lemma c_expr_S fuel min p : c_expr source F (S fuel) min p =
    do (p, tok) <- c_peek source F p;
    do (p, c) <- c_checkpoint F p;
    do (p, return_) <-
      match fst tok with
      | COpenParen =>
        do p <- c_token source F p;
        do (p, c) <- c_checkpoint F p;
        do p <- c_expr source F fuel 0 p;
        do p <- c_call F (OCloseAt c CGroup) p;
        do (p, b) <- c_eat source F CCloseParen p;
        if negb b then do p <- c_bump source F CError p; Ok (p, true) else Ok (p, false)
      | CNumber => do p <- c_bump source F CNumber p; Ok (p, false)
      | _ => do p <- c_bump source F CError p; Ok (p, true)
      end;
    if return_ : bool then Ok p
    else
      do (p, operation) <- c_expr_loop source F fuel min false p;
      if operation : bool then c_call F (OCloseAt c COperation) p else Ok p.
Proof. reflexivity. Qed.
Lemma c_expr_loop_S fuel min operation p : c_expr_loop source F (S fuel) min operation p =
    do (p, tok) <- c_peek source F p;
    match c_op (fst tok) with
    | Some (lp, rp) =>
      if (min <=? lp)%N then
        do p <- c_bump source F COperator p;
        do p <- c_expr source F fuel rp p;
        c_expr_loop source F fuel min true p
      else Ok (p, operation)
    | None => Ok (p, operation)
    end.
Proof. reflexivity. Qed.

Lemma joins_dec min r : (exists lp rp, binding (fst (next_token r)) = Some (lp, rp) /\ (min <= lp)%N) \/
  ~ joins min r /\ (match c_op (fst (next_token r)) with Some (lp, rp) => (min <=? lp)%N | None => false end = false).
Proof.
  unfold joins. change (c_op (fst (next_token r))) with (binding (fst (next_token r))). destruct (binding (fst (next_token r))) as [[lp rp]|].
  - destruct (N.leb_spec min lp); [left; eauto|]. right. split; auto. intros (a & b & E & H'). injection E as <- <-. lia.
  - right. split; auto. intros (a & b & E & _). discriminate.
Qed.

Lemma tail_step n : (forall m, m < n -> expr_ok m) -> (forall m, m < n -> tail_ok m) -> tail_ok n.
Proof.
  intros He Ht ts min op acc L. destruct (csplit_blank ts) as (ws & r & -> & B & N1). rewrite app_length in L.
  destruct (joins_dec min r) as [(lp & rp & Eb & Hm)|[Hj Ej]].
  - destruct r as [|[k m] r1]; [discriminate|]. simpl in Eb, L.
    destruct (He (pred n) ltac:(lia) r1 rp ltac:(lia)) as (e & r2 & q1 & A1 & A2 & A3 & A4 & A5).
    assert (L2 : length r2 <= length r1) by lia.
    destruct (Ht (pred n) ltac:(lia) r2 min true (acc ++ map cleaf ws ++ GNode COperator [GTok k m] :: e) ltac:(lia)) as (out & op' & rest & q2 & B1 & B2 & B3 & B4 & B5).
    exists out, op', rest, (seq (toks ws) (PNode COperator (PTok k m PDone) (seq q1 q2))).
    split; [econstructor; eauto|]. split; [rewrite app_length; simpl; lia|].
    split; [rewrite scoped_seq; split; [apply scoped_toks|]; simpl; rewrite scoped_seq; auto|].
    split. { rewrite trees_seq, trees_toks_leaf. simpl. rewrite trees_seq, (trees_any q1 A3), A4. rewrite <- B4. f_equal. rewrite <- !app_assoc. auto. }
    intros cur buf H. destruct (peek_does _ _ _ _ H B N1) as (cur1 & R1 & G1). destruct (ready_step cur1 _ R1) as [S1 _]. simpl in S1.
    destruct (A5 _ _ S1) as (cur2 & buf2 & S2 & G2). destruct (B5 _ _ S2) as (cur3 & S3 & G3). exists cur3. split; auto.
    intros fuel w c Lf. destruct fuel as [|fuel]; [lia|]. rewrite c_expr_loop_S. rewrite (G1 w c), does_bind, does_seq. apply does_ext. intros w1.
    cbn [bind fst next_token]. change (c_op k) with (binding k). rewrite Eb. apply N.leb_le in Hm. rewrite Hm.
    change (PNode COperator (PTok k m PDone) (seq q1 q2)) with (seq (PNode COperator (PTok k m PDone) PDone) (seq q1 q2)).
    rewrite does_seq, (bump_does COperator _ _ _ c R1), does_bind. cbn [fst snd next_token]. apply does_ext. intros w2. cbn [bind].
    rewrite (G2 fuel w2 c ltac:(lia)), does_bind, does_seq. apply does_ext. intros w3. cbn [bind]. apply G3. lia.
  - exists (acc ++ map cleaf ws), op, r, (toks ws). split; [constructor; auto|]. split; [rewrite app_length; lia|].
    split; [apply scoped_toks|]. split; [apply trees_toks_leaf|].
    intros cur buf H. destruct (peek_does _ _ _ _ H B N1) as (cur1 & R1 & G1). exists cur1. split; auto.
    intros fuel w c Lf. destruct fuel as [|fuel]; [lia|]. rewrite c_expr_loop_S. rewrite (G1 w c), does_bind. apply does_ext. intros w1.
    cbn [bind]. destruct (c_op (fst (next_token r))) as [[lp rp]|]; auto. rewrite Ej. auto.
Qed.

(** The end of [expr]: the operators after [acc], in the checkpoint. *)
Definition finish (op : bool) : prog csyntax := if op then PWrap COperation PDone else PDone.
Lemma finish_does op cur buf w c : does w (finish op) c (fun w => Ok (CParser cur w buf)) =
  (if op then c_call F (OCloseAt c COperation) (CParser cur w buf) else Ok (CParser cur w buf)).
Proof. destruct op; unfold finish; [rewrite does_wrap; reflexivity|rewrite does_done; reflexivity]. Qed.
Lemma finish_trees op acc : program_trees acc (finish op) = operation_of op acc.
Proof. destruct op; auto. Qed.
Lemma finish_scoped op : scoped true (finish op). Proof. destruct op; simpl; auto. Qed.

Lemma expr_step n : (forall m, m < n -> expr_ok m) -> (forall m, m < n -> tail_ok m) -> expr_ok n.
Proof.
  intros He Ht ts min L. destruct (csplit_blank ts) as (ws & r & -> & B & N1). rewrite app_length in L.
  assert (D : (exists m r1, r = (COpenParen, m) :: r1) \/ (exists m r1, r = (CNumber, m) :: r1) \/
     (fst (next_token r) <> CNumber /\ fst (next_token r) <> COpenParen)).
  { destruct r as [|[s m] r]; [right; right; split; discriminate|]. destruct s; eauto; right; right; split; discriminate. }
  destruct D as [(m & r1 & ->)|[(m & r1 & ->)|[D1 D2]]].
  - (* group *)
    simpl in L. destruct (He (pred n) ltac:(lia) r1 0%N ltac:(lia)) as (inner & r2 & q1 & A1 & A2 & A3 & A4 & A5).
    destruct (csplit_blank r2) as (ws2 & r3 & -> & B2 & N3). rewrite app_length in A2.
    assert (D : (exists j r4, r3 = (CCloseParen, j) :: r4) \/ fst (next_token r3) <> CCloseParen).
    { destruct r3 as [|[s j] r3]; [right; discriminate|]. destruct s; eauto; right; discriminate. }
    assert (P0 : runs (fun fuel p => do (p, tok) <- c_peek source F p; c_token source F p) 0 (ws ++ (COpenParen, m) :: r1)
       (seq (toks ws) (PTok COpenParen m PDone)) r1).
    { intros cur buf H. destruct (peek_does _ _ _ _ H B N1) as (cur1 & R1 & G1). destruct (ready_step cur1 _ R1) as [S1 _]. simpl in S1.
      exists cur1, None. split; auto. intros fuel w c _. rewrite (G1 w c), does_bind, does_seq. apply does_ext. intros w1. cbn [bind].
      rewrite (token_does _ _ _ c R1). auto. }
    clear P0.
    destruct D as [(j & r4 & ->)|D].
    + (* closed *)
      simpl in A2.
      destruct (Ht (pred n) ltac:(lia) r4 min false (GTok COpenParen m :: GNode CGroup inner :: map cleaf ws2 ++ [GTok CCloseParen j]) ltac:(lia))
        as (out & op' & rest & q2 & C1 & C2 & C3 & C4 & C5).
      exists (map cleaf ws ++ operation_of op' out), rest,
        (seq (toks ws) (PMark (PTok COpenParen m (PMark (seq q1 (PWrap CGroup PDone)) (seq (toks ws2) (PTok CCloseParen j (seq q2 (finish op')))))) PDone)).
      split; [eapply cexpr_group; eauto|]. split; [rewrite app_length; simpl; lia|].
      split. { rewrite scoped_seq. split; [apply scoped_toks|]. simpl. rewrite !scoped_seq. simpl. rewrite scoped_seq.
        auto 10 using scoped_mono, scoped_toks, finish_scoped. }
      split. { rewrite trees_seq, trees_toks_leaf. simpl. f_equal. rewrite !trees_seq. rewrite trees_toks_leaf, A4. simpl.
        rewrite trees_seq, finish_trees. rewrite <- C4. auto. }
      intros cur buf H. destruct (peek_does _ _ _ _ H B N1) as (cur1 & R1 & G1). destruct (ready_step cur1 _ R1) as [S1 _]. simpl in S1.
      destruct (A5 _ _ S1) as (cur2 & buf2 & S2 & G2). destruct (peek_does _ _ _ _ S2 B2 N3) as (cur3 & R3 & G3).
      destruct (ready_step cur3 _ R3) as [S3 _]. simpl in S3. destruct (C5 _ _ S3) as (cur4 & R4 & G4). exists cur4, (hd_error rest). split; [exact R4|].
      intros fuel w c Lf. destruct fuel as [|fuel]; [lia|]. rewrite c_expr_S. rewrite (G1 w c), does_bind, does_seq. apply does_ext. intros w1. cbn [bind].
      unfold c_checkpoint at 1. cbn [cp_world cp_buf cp_cursor]. rewrite does_mark, bind_bind. apply bind_ext. intros [w2 c2]. cbn [bind fst next_token].
      change (PTok COpenParen m (PMark (seq q1 (PWrap CGroup PDone)) (seq (toks ws2) (PTok CCloseParen j (seq q2 (finish op')))))) with
        (seq (PTok COpenParen m PDone) (seq (PMark (seq q1 (PWrap CGroup PDone)) PDone) (seq (toks ws2) (seq (PTok CCloseParen j PDone) (seq q2 (finish op')))))).
      rewrite (token_does _ _ _ c2 R1). cbn [fst snd next_token]. rewrite !does_seq, !does_bind. apply does_ext. intros w3. cbn [bind].
      unfold c_checkpoint at 1. cbn [cp_world cp_buf cp_cursor]. rewrite does_seq, does_mark, !bind_bind. apply bind_ext. intros [w4 c4]. cbn [bind].
      rewrite (G2 fuel w4 c4 ltac:(lia)), does_seq, !does_bind. apply does_ext. intros w5. cbn [bind]. unfold c_call at 1. cbn [cp_world cp_buf cp_cursor].
      rewrite does_wrap, !bind_bind. apply bind_ext. intros w6. cbn [bind]. unfold c_eat. rewrite (G3 w6 c2), does_seq, !does_bind. apply does_ext. intros w7.
      cbn [bind fst next_token csyntax_eqb negb]. destruct (ready_step cur3 _ R3) as [_ Gs]. rewrite Gs. cbn [bind fst snd next_token]. unfold c_call at 1.
      cbn [cp_world cp_buf cp_cursor]. rewrite does_seq, does_tok, !bind_bind. apply bind_ext. intros w8. cbn [bind negb].
      rewrite (G4 fuel w8 c2 ltac:(lia)), does_seq, does_bind. apply does_ext. intros w9. cbn [bind]. rewrite finish_does. auto.
    + (* not closed *)
      exists (map cleaf ws ++ GTok COpenParen m :: GNode CGroup inner :: map cleaf ws2 ++ [GNode CError [cleaf (next_token r3)]]), (tl r3),
        (seq (toks ws) (PMark (PTok COpenParen m (PMark (seq q1 (PWrap CGroup PDone)) (seq (toks ws2) (PNode CError (PTok (fst (next_token r3)) (snd (next_token r3)) PDone) PDone)))) PDone)).
      split; [eapply cexpr_unclosed; eauto|]. split. { rewrite app_length; simpl. destruct r3; simpl in *; lia. }
      split. { rewrite scoped_seq. split; [apply scoped_toks|]. simpl. rewrite !scoped_seq. simpl. auto 10 using scoped_mono, scoped_toks. }
      split. { rewrite trees_seq, trees_toks_leaf. simpl. f_equal. rewrite !trees_seq. rewrite trees_toks_leaf, A4. simpl. auto. }
      intros cur buf H. destruct (peek_does _ _ _ _ H B N1) as (cur1 & R1 & G1). destruct (ready_step cur1 _ R1) as [S1 _]. simpl in S1.
      destruct (A5 _ _ S1) as (cur2 & buf2 & S2 & G2). destruct (peek_does _ _ _ _ S2 B2 N3) as (cur3 & R3 & G3).
      destruct (ready_step cur3 _ R3) as [S3 _]. exists cur3, None. split; [exact S3|].
      intros fuel w c Lf. destruct fuel as [|fuel]; [lia|]. rewrite c_expr_S. rewrite (G1 w c), does_bind, does_seq. apply does_ext. intros w1. cbn [bind].
      unfold c_checkpoint at 1. cbn [cp_world cp_buf cp_cursor]. rewrite does_mark, bind_bind. apply bind_ext. intros [w2 c2]. cbn [bind fst next_token].
      change (PTok COpenParen m (PMark (seq q1 (PWrap CGroup PDone)) (seq (toks ws2) (PNode CError (PTok (fst (next_token r3)) (snd (next_token r3)) PDone) PDone)))) with
        (seq (PTok COpenParen m PDone) (seq (PMark (seq q1 (PWrap CGroup PDone)) PDone) (seq (toks ws2) (PNode CError (PTok (fst (next_token r3)) (snd (next_token r3)) PDone) PDone)))).
      rewrite (token_does _ _ _ c2 R1). cbn [fst snd next_token]. rewrite !does_seq, !does_bind. apply does_ext. intros w3. cbn [bind].
      unfold c_checkpoint at 1. cbn [cp_world cp_buf cp_cursor]. rewrite does_seq, does_mark, !bind_bind. apply bind_ext. intros [w4 c4]. cbn [bind].
      rewrite (G2 fuel w4 c4 ltac:(lia)), does_seq, !does_bind. apply does_ext. intros w5. cbn [bind]. unfold c_call at 1. cbn [cp_world cp_buf cp_cursor].
      rewrite does_wrap, !bind_bind. apply bind_ext. intros w6. cbn [bind]. unfold c_eat. rewrite (G3 w6 c2), does_seq, !does_bind. apply does_ext. intros w7.
      assert (Ed : csyntax_eqb (fst (next_token r3)) CCloseParen = false). { destruct (csyntax_eqb (fst (next_token r3)) CCloseParen) eqn:E; auto. apply csyntax_eqb_eq in E. congruence. }
      cbn [bind]. rewrite Ed. cbn [negb bind]. rewrite (bump_does CError _ _ _ c2 R3), !does_bind. apply does_ext. intros w8. auto.
  - (* number *)
    simpl in L.
    destruct (Ht (pred n) ltac:(lia) r1 min false [GNode CNumber [GTok CNumber m]] ltac:(lia)) as (out & op' & rest & q2 & C1 & C2 & C3 & C4 & C5).
    exists (map cleaf ws ++ operation_of op' out), rest, (seq (toks ws) (PMark (PNode CNumber (PTok CNumber m PDone) (seq q2 (finish op'))) PDone)).
    split; [eapply cexpr_number; eauto|]. split; [rewrite app_length; simpl; lia|].
    split. { rewrite scoped_seq. split; [apply scoped_toks|]. simpl. rewrite !scoped_seq. auto 10 using scoped_mono, finish_scoped. }
    split. { rewrite trees_seq, trees_toks_leaf. simpl. rewrite trees_seq, finish_trees. rewrite <- C4. auto. }
    intros cur buf H. destruct (peek_does _ _ _ _ H B N1) as (cur1 & R1 & G1). destruct (ready_step cur1 _ R1) as [S1 _]. simpl in S1.
    destruct (C5 _ _ S1) as (cur4 & R4 & G4). exists cur4, (hd_error rest). split; [exact R4|].
    intros fuel w c Lf. destruct fuel as [|fuel]; [lia|]. rewrite c_expr_S. rewrite (G1 w c), does_bind, does_seq. apply does_ext. intros w1. cbn [bind].
    unfold c_checkpoint at 1. cbn [cp_world cp_buf cp_cursor]. rewrite does_mark, bind_bind. apply bind_ext. intros [w2 c2]. cbn [bind fst next_token].
    change (PNode CNumber (PTok CNumber m PDone) (seq q2 (finish op'))) with (seq (PNode CNumber (PTok CNumber m PDone) PDone) (seq q2 (finish op'))).
    rewrite (bump_does CNumber _ _ _ c2 R1), does_seq, !does_bind. cbn [fst snd next_token]. apply does_ext. intros w3. cbn [bind].
    rewrite (G4 fuel w3 c2 ltac:(lia)), does_seq, does_bind. apply does_ext. intros w9. cbn [bind]. rewrite finish_does. auto.
  - (* anything else *)
    exists (map cleaf ws ++ [GNode CError [cleaf (next_token r)]]), (tl r),
      (seq (toks ws) (PMark (PNode CError (PTok (fst (next_token r)) (snd (next_token r)) PDone) PDone) PDone)).
    split; [eapply cexpr_other; eauto|]. split. { rewrite app_length. destruct r as [|t r]; simpl; [|lia]. destruct ws; simpl; lia. }
    split. { rewrite scoped_seq. split; [apply scoped_toks|]. simpl. auto. }
    split. { rewrite trees_seq, trees_toks_leaf. simpl. auto. }
    intros cur buf H. destruct (peek_does _ _ _ _ H B N1) as (cur1 & R1 & G1). destruct (ready_step cur1 _ R1) as [S1 _].
    exists cur1, None. split; [exact S1|].
    intros fuel w c Lf. destruct fuel as [|fuel]; [lia|]. rewrite c_expr_S. rewrite (G1 w c), does_bind, does_seq. apply does_ext. intros w1. cbn [bind].
    unfold c_checkpoint at 1. cbn [cp_world cp_buf cp_cursor]. rewrite does_mark, bind_bind. apply bind_ext. intros [w2 c2]. cbn [bind].
    assert (E : forall (A : Type) (x y z : A), match fst (next_token r) with COpenParen => x | CNumber => y | _ => z end = z).
    { intros A x y z. destruct (fst (next_token r)); auto; congruence. }
    rewrite E. rewrite (bump_does CError _ _ _ c2 R1), !does_bind. apply does_ext. intros w3. auto.
Qed.

Lemma both_ok n : expr_ok n /\ tail_ok n.
Proof.
  induction n as [n IH] using lt_wf_ind. split.
  - apply expr_step; intros k Hk; apply (IH k Hk).
  - apply tail_step; intros k Hk; apply (IH k Hk).
Qed.

(** ** The whole source. *)
Lemma advance_does n : forall skipped r cur buf, length skipped <= n -> at_ cur buf (skipped ++ r) ->
  Forall (fun t => fst t <> CNumber) skipped -> Forall (fun t => fst t <> CEof) skipped -> (forall t r', r = t :: r' -> fst t = CNumber) ->
  exists cur', ready cur' r /\ forall fuel w c, length skipped < fuel ->
    c_advance_loop source F fuel [CNumber] (CParser cur w buf) = does w (toks skipped) c (fun w => Ok (CParser cur' w (hd_error r))).
Proof.
  induction n as [|n IH]; intros skipped r cur buf Ln R H1 H2 H3.
  all: assert (Stop : forall ws, Forall cblank ws -> at_ cur buf (ws ++ r) -> exists cur', ready cur' r /\ forall fuel w c, length ws < fuel ->
    c_advance_loop source F fuel [CNumber] (CParser cur w buf) = does w (toks ws) c (fun w => Ok (CParser cur' w (hd_error r)))).
  1,3: intros ws B Hat; assert (N1 : cnot_blank r) by (intros t r' E Hb; specialize (H3 _ _ E); unfold cblank in Hb; congruence);
    destruct (peek_does _ _ _ _ Hat B N1) as (cur1 & R1 & G1); exists cur1; split; auto; intros fuel w c Lf; (destruct fuel as [|fuel]; [lia|]);
    cbn [c_advance_loop]; rewrite (G1 w c), does_bind; apply does_ext; intros w1; cbn [bind];
    (destruct r as [|t r']; [reflexivity|]); cbn [next_token]; rewrite (H3 _ _ eq_refl); reflexivity.
  - destruct skipped; [|simpl in Ln; lia]. apply (Stop []); auto.
  - destruct (csplit_blank skipped) as (ws & sk & -> & B & N1). destruct sk as [|t sk].
    { rewrite app_nil_r in *. apply (Stop ws); auto. }
    clear Stop. rewrite <- app_assoc in R. rewrite Forall_app in H1, H2. destruct H1 as [_ H1], H2 as [_ H2]. inversion H1; inversion H2; subst.
    assert (N2 : cnot_blank ((t :: sk) ++ r)). { intros t' r' E. injection E as <- _. eapply N1; eauto. }
    destruct (peek_does _ _ _ _ R B N2) as (cur1 & R1 & G1). destruct (ready_step cur1 _ R1) as [S1 S2]. simpl in S1.
    rewrite app_length in Ln. simpl in Ln. destruct (IH sk r cur1 None ltac:(lia) S1) as (cur2 & R2 & G2); auto.
    exists cur2. split; auto. intros fuel w c Lf. rewrite app_length in Lf. simpl in Lf. destruct fuel as [|fuel]; [lia|].
    cbn [c_advance_loop]. rewrite (G1 w c), does_bind.
    replace (toks (ws ++ t :: sk)) with (seq (toks ws) (toks (t :: sk))).
    2: { clear. induction ws as [|x ws IH]; [reflexivity|]. change (PTok (fst x) (snd x) (seq (toks ws) (toks (t :: sk))) = PTok (fst x) (snd x) (toks (ws ++ t :: sk))). rewrite IH. reflexivity. }
    rewrite does_seq. apply does_ext. intros w1. cbn [bind next_token app].
    assert (E1 : csyntax_eqb (fst t) CEof = false). { destruct (csyntax_eqb (fst t) CEof) eqn:E; auto. apply csyntax_eqb_eq in E. congruence. }
    assert (E2 : csyntax_eqb (fst t) CNumber = false). { destruct (csyntax_eqb (fst t) CNumber) eqn:E; auto. apply csyntax_eqb_eq in E. congruence. }
    simpl existsb. rewrite E1, E2. cbn [orb]. unfold c_call. cbn [cp_world cp_buf cp_cursor]. rewrite bind_bind, does_toks_cons. apply bind_ext. intros w2. cbn [bind].
    specialize (S2 w2). simpl app in S2. rewrite S2. cbn [bind]. apply G2. lia.
Qed.

Lemma split_number (ts : list ctok) : exists skipped r, ts = skipped ++ r /\ Forall (fun t => fst t <> CNumber) skipped /\ (forall t r', r = t :: r' -> fst t = CNumber).
Proof.
  induction ts as [|[s n] ts (sk & r & -> & H1 & H2)]. { exists [], []. repeat split; auto. discriminate. }
  assert (D : s = CNumber \/ s <> CNumber) by (destruct s; auto; right; discriminate). destruct D as [->|D].
  - exists [], ((CNumber, n) :: sk ++ r). repeat split; auto. intros t r' E. injection E as <- _. auto.
  - exists ((s, n) :: sk), r. repeat split; auto.
Qed.

Lemma root_ok n : forall ts, length ts <= n -> no_eof ts ->
  exists out q, croot ts out /\ scoped false q /\ program_trees [] q = out /\
    forall cur buf, at_ cur buf ts -> exists cur' buf', forall fuel w c, n < fuel ->
      c_root_loop source F fuel (CParser cur w buf) = does w q c (fun w => Ok (CParser cur' w buf')).
Proof.
  induction n as [n IH] using lt_wf_ind. intros ts L Hr.
  destruct (proj1 (both_ok (length ts)) ts 0%N ltac:(lia)) as (out & r0 & q1 & A1 & A2 & A3 & A4 & A5).
  destruct (proj1 (proj1 grammar_facts _ _ _ _ A1) Hr) as [Hr0 E0]. clear E0.
  destruct (csplit_blank r0) as (ws & r1 & -> & B & N1). destruct (split_number r1) as (sk & r & -> & K1 & K2).
  rewrite !no_eof_app in Hr0. destruct Hr0 as (_ & Hk & Hr').
  assert (D : sk ++ r = [] \/ sk ++ r <> []) by (destruct (sk ++ r); auto; right; discriminate). destruct D as [D|D].
  - rewrite D in *. rewrite app_nil_r in *. exists (out ++ map cleaf ws), (seq q1 (toks ws)). split; [constructor; auto|].
    split; [rewrite scoped_seq; auto using scoped_toks|]. split; [rewrite trees_seq, A4, trees_toks_leaf; auto|].
    intros cur buf H. destruct (A5 _ _ H) as (cur1 & buf1 & S1 & G1). rewrite <- (app_nil_r ws) in S1. destruct (peek_does _ _ _ _ S1 B N1) as (cur2 & S2 & G2).
    assert (Lt : length ts < c_expr_fuel source). { destruct H as [H _]. unfold c_expr_fuel. lia. }
    exists cur2, None. intros fuel w c Lf. destruct fuel as [|fuel]; [lia|]. cbn [c_root_loop].
    rewrite (G1 _ w c Lt), does_bind, does_seq. apply does_ext. intros w1. cbn [bind]. unfold c_is_eof. rewrite (G2 w1 c), !does_bind. apply does_ext. intros w2. reflexivity.
  - assert (Lr : length r < length ts).
    { rewrite !app_length in A2. destruct ts as [|t ts]; [|simpl in *; lia]. simpl in A2. destruct sk; [destruct r; [exfalso; apply D; reflexivity|]|]; simpl in A2; lia. }
    destruct (IH (pred n) ltac:(lia) r ltac:(lia) Hr') as (outs & q2 & C1 & C2 & C3 & C4).
    exists (out ++ map cleaf ws ++ GNode CError (map cleaf sk) :: outs), (seq q1 (seq (toks ws) (PMark (seq (toks sk) (PWrap CError PDone)) q2))).
    split; [econstructor; eauto|]. split; [rewrite !scoped_seq; simpl; rewrite scoped_seq; simpl; auto 10 using scoped_toks|].
    split. { rewrite !trees_seq, A4, trees_toks_leaf. simpl. rewrite trees_seq, trees_toks_leaf. simpl. rewrite (trees_any q2 C2), C3. rewrite <- !app_assoc. auto. }
    intros cur buf H. destruct (A5 _ _ H) as (cur1 & buf1 & S1 & G1). destruct (peek_does _ _ _ _ S1 B N1) as (cur2 & S2 & G2).
    destruct (advance_does (length sk) sk r cur2 _ ltac:(lia) S2 K1 Hk K2) as (cur3 & S3 & G3). destruct (C4 _ _ S3) as (cur4 & buf4 & G4).
    assert (Lt : length ts < c_expr_fuel source). { destruct H as [H _]. unfold c_expr_fuel. lia. }
    assert (La : length sk < S (S (length source))). { destruct S2 as [S2 _]. rewrite app_length in S2. lia. }
    exists cur4, buf4. intros fuel w c Lf. destruct fuel as [|fuel]; [lia|]. cbn [c_root_loop].
    rewrite (G1 _ w c Lt), does_bind, does_seq. apply does_ext. intros w1. cbn [bind]. unfold c_is_eof. rewrite (G2 w1 c), !does_bind, does_seq. apply does_ext. intros w2.
    assert (Ef : csyntax_eqb (fst (next_token (sk ++ r))) CEof = false).
    { assert (Hkr : no_eof (sk ++ r)) by (apply no_eof_app; auto). destruct (sk ++ r) as [|t l]; [exfalso; apply D; reflexivity|]. apply no_eof_cons in Hkr as [Hkr _].
      destruct (csyntax_eqb (fst (next_token (t :: l))) CEof) eqn:E; auto. apply csyntax_eqb_eq in E. simpl in E. congruence. }
    cbn [bind]. rewrite Ef. unfold c_checkpoint. cbn [cp_world cp_buf cp_cursor].
    change (PMark (seq (toks sk) (PWrap CError PDone)) q2) with (seq (PMark (seq (toks sk) (PWrap CError PDone)) PDone) q2).
    rewrite does_seq, does_mark, !bind_bind. apply bind_ext. intros [w3 c3]. cbn [bind]. unfold c_advance_until. rewrite (G3 _ w3 c3 La), does_bind, does_seq.
    apply does_ext. intros w4. cbn [bind]. unfold c_call. cbn [cp_world cp_buf cp_cursor]. rewrite does_wrap, !bind_bind. apply bind_ext. intros w5. cbn [bind]. apply G4. lia.
Qed.
End Lexer.

Lemma at_start source ts : clexes source ts -> at_ source 0%N None ts.
Proof.
  intros H. split; [apply clexes_length; auto|]. exists [], source, ts. repeat split; auto. discriminate.
Qed.
