(** C50: parsing in examples/calculator. *)
From Coq Require Import Lia.
From Verif Require Import Base Pointer Index Tree Builder Hist Node Iter Print Spec SpecEq SpecProgram Text ClientMath ClientCalc SpecCalc
  PropsProgram ClientFacts Enum PropsMath CalcParse.

(** ** There is one way to read the tokens. *)
Lemma csplit_unique (ws ws' rest rest' : list ctok) : Forall cblank ws -> Forall cblank ws' -> cnot_blank rest -> cnot_blank rest' ->
  ws ++ rest = ws' ++ rest' -> ws = ws' /\ rest = rest'.
Proof.
  revert ws'. induction ws as [|t ws IH]; intros [|t' ws'] H1 H2 H3 H4 E; simpl in E; auto.
  - exfalso. inversion H2; subst. eapply H3; eauto.
  - exfalso. inversion H1; subst. eapply H4; eauto.
  - injection E as -> E. inversion H1; inversion H2; subst. destruct (IH ws') as [-> ->]; auto.
Qed.
Lemma cnot_blank_cons k n (r : list ctok) : k <> CWhitespace -> cnot_blank ((k, n) :: r).
Proof. intros H t' r' E. injection E as <- _. auto. Qed.
Lemma binding_not_space k b : binding k = Some b -> k <> CWhitespace.
Proof. intros H ->. discriminate. Qed.
#[local] Hint Resolve cnot_blank_cons binding_not_space : core.
#[local] Hint Extern 1 (_ <> _) => discriminate : core.

Ltac same_split :=
  match goal with E : ?a ++ ?b = ?c ++ ?d |- _ =>
    let X := fresh in let Y := fresh in
    assert (X : a = c /\ b = d) by (apply csplit_unique; eauto); destruct X as [X Y]; clear E; subst
  end.
Lemma grammar_functional :
  (forall min ts o r, cexpr min ts o r -> forall o' r', cexpr min ts o' r' -> o = o' /\ r = r') /\
  (forall min op acc ts o p r, ctail min op acc ts o p r -> forall o' p' r', ctail min op acc ts o' p' r' -> o = o' /\ p = p' /\ r = r').
Proof.
  apply grammar_ind.
  - intros min ws n r out op rest B Ht IH o' r' H.
    inversion H as [? ws' n' r'' out' op' rest' B' Ht'|? ws' n' r1 inner ws2 m r2 out' op' rest' B' B2 He' Ht'|? ws' n' r1 inner ws2 r2 B' B2 N1 He' Hc'|? ws' r'' B' N1 H1 H2]; subst;
      same_split; try discriminate.
    + match goal with E : _ :: _ = _ :: _ |- _ => injection E as -> -> end. destruct (IH _ _ _ Ht') as (-> & -> & ->). auto.
    + exfalso. apply H1. reflexivity.
  - intros min ws n r1 inner ws2 m r2 out op rest B B2 He IHe Ht IHt o' r' H.
    inversion H as [? ws' n' r'' out' op' rest' B' Ht'|? ws' n' r1' inner' ws2' m' r2' out' op' rest' B' B2' He' Ht'|? ws' n' r1' inner' ws2' r2' B' B2' N1 He' Hc'|? ws' r'' B' N1 H1 H2]; subst;
      same_split; try discriminate.
    + match goal with E : _ :: _ = _ :: _ |- _ => injection E as -> -> end. destruct (IHe _ _ He') as [-> E]. same_split.
      match goal with E : _ :: _ = _ :: _ |- _ => injection E as -> -> end. destruct (IHt _ _ _ Ht') as (-> & -> & ->). auto.
    + match goal with E : _ :: _ = _ :: _ |- _ => injection E as -> -> end. destruct (IHe _ _ He') as [-> E]. same_split. exfalso. apply Hc'. reflexivity.
    + exfalso. apply H2. reflexivity.
  - intros min ws n r1 inner ws2 r2 B B2 N2 He IHe Hc o' r' H.
    inversion H as [? ws' n' r'' out' op' rest' B' Ht'|? ws' n' r1' inner' ws2' m' r2' out' op' rest' B' B2' He' Ht'|? ws' n' r1' inner' ws2' r2' B' B2' N1 He' Hc'|? ws' r'' B' N1 H1 H2]; subst;
      same_split; try discriminate.
    + match goal with E : _ :: _ = _ :: _ |- _ => injection E as -> -> end. destruct (IHe _ _ He') as [-> E]. same_split. exfalso. apply Hc. reflexivity.
    + match goal with E : _ :: _ = _ :: _ |- _ => injection E as -> -> end. destruct (IHe _ _ He') as [-> E]. same_split. auto.
    + exfalso. apply H2. reflexivity.
  - intros min ws r B N1 H1 H2 o' r' H.
    inversion H as [? ws' n' r'' out' op' rest' B' Ht'|? ws' n' r1' inner' ws2' m' r2' out' op' rest' B' B2' He' Ht'|? ws' n' r1' inner' ws2' r2' B' B2' N1' He' Hc'|? ws' r'' B' N1' H1' H2']; subst;
      same_split; auto; exfalso; simpl in *; congruence.
  - intros min op acc ws r B N1 Hj o' p' r' H.
    inversion H as [? ? ? ws' r'' B' N1' Hj'|? ? ? ws' k n r1 lp rp e r2 out op' rest B' Hb Hm He Ht]; subst; same_split; auto.
    exfalso. apply Hj. exists lp, rp. auto.
  - intros min op acc ws k n r1 lp rp e r2 out op' rest B Hb Hm He IHe Ht IHt o' p' r' H.
    inversion H as [? ? ? ws' r'' B' N1' Hj'|? ? ? ws' k' n' r1' lp' rp' e' r2' out' op'' rest' B' Hb' Hm' He' Ht']; subst; same_split; auto.
    + exfalso. apply Hj'. exists lp, rp. auto.
    + match goal with E : _ :: _ = _ :: _ |- _ => injection E as -> -> -> end. rewrite Hb in Hb'. injection Hb' as <- <-. destruct (IHe _ _ He') as [-> ->]. apply (IHt _ _ _ Ht').
Qed.
Lemma croot_functional ts o : croot ts o -> forall o', croot ts o' -> o = o'.
Proof.
  induction 1 as [ts out ws He B|ts out ws sk r outs He B N1 N2 K1 K2 H IH]; intros o' H'.
  - inversion H' as [ts' out' ws' He' B'|ts' out' ws' sk' r' outs' He' B' N1' N2' K1' K2' H'']; subst;
      destruct (proj1 grammar_functional _ _ _ _ He _ _ He') as [-> E]; subst; auto.
    exfalso. rewrite Forall_app in B. destruct B as [_ B]. destruct (sk' ++ r') as [|t l] eqn:El; [apply N2'; reflexivity|]. inversion B; subst. eapply N1'; eauto.
  - inversion H' as [ts' out' ws' He' B'|ts' out' ws' sk' r' outs' He' B' N1' N2' K1' K2' H'']; subst;
      destruct (proj1 grammar_functional _ _ _ _ He _ _ He') as [-> E]; subst; auto.
    + exfalso. rewrite Forall_app in B'. destruct B' as [_ B']. destruct (sk ++ r) as [|t l] eqn:El; [apply N2; reflexivity|]. inversion B'; subst. eapply N1; eauto.
    + apply csplit_unique in E as [-> E]; auto.
      assert (Es : sk = sk' /\ r = r').
      { clear - E K1 K2 K1' K2'. revert sk' E K1'. induction sk as [|t sk IH]; intros [|t' sk'] E K1'; simpl in E; auto.
        - inversion K1'; subst. exfalso. eauto.
        - inversion K1; subst. exfalso. eauto.
        - injection E as -> E. inversion K1; inversion K1'; subst. destruct (IH ltac:(auto) sk' E) as [-> ->]; auto. }
      destruct Es as [-> ->]. rewrite (IH _ H''). auto.
Qed.

Lemma widths_total gs : widths gs = leaf_total gs.
Proof.
  assert (G : forall g, width g = leaf_total [g]).
  { fix G 1. intros [d n|d kids]; [rewrite lt_tok; auto|]. rewrite lt_node. simpl.
    induction kids as [|g kids IH]; simpl; auto. rewrite lt_cons, <- IH. f_equal. apply G. }
  induction gs as [|g gs IH]; auto. rewrite lt_cons, <- IH, <- G. auto.
Qed.

(** ** Theorems. *)

(** The lexer yields the lexemes of the source, each as long as possible, and then nothing; there is only one way to do so. *)
Lemma next_enumerates source : forall suf ts, clexes suf ts -> forall pre, source = pre ++ suf -> enumerates (lx_next source) (str_len pre) ts.
Proof.
  induction 1 as [|k a rest ts H1 H2 H IH]; intros pre E.
  - rewrite app_nil_r in E. apply (enumerates_stuck (lx_next source) (fun c => c = str_len pre)); auto. intros c ->. exists (str_len pre). split; auto.
    apply next_end. auto.
  - apply enumerates_cons. exists (str_len (pre ++ a)). split; [eapply next_at; eauto|]. apply IH. rewrite <- app_assoc. auto.
Qed.
Theorem C50_lexer : forall source ts, clexes source ts <-> enumerates (lx_next source) 0%N ts.
Proof.
  intros source ts. split. { intros H. apply (next_enumerates source source ts H []). auto. }
  intros H. destruct (clexes_total source) as (ts' & H'). rewrite (enumerates_fun _ _ _ _ H (next_enumerates source source ts' H' [] eq_refl)). auto.
Qed.
Print Assumptions C50_lexer.

(** Every source is parsed, into the one forest the grammar gives for its tokens, and the tokens of the tree are exactly
    those of the source.  It fails with Overflow only, and not when the source is small enough. *)
Theorem C50_parses : forall F source, vec_flavor F -> fl_index F <> IxEmpty ->
  exists ts forest, clexes source ts /\ croot ts forest /\ (forall forest', croot ts forest' -> forest' = forest) /\
    real_tokens forest = ts /\ widths forest = str_len source /\ sizes forest <= 5 * length ts + 2 /\ length ts <= length source /\
    yields F (calc_tree source F) forest.
Proof.
  intros F source HF HE. destruct (clexes_total source) as (ts & Hl). exists ts.
  pose proof (clexes_real _ _ Hl) as Hr.
  destruct (root_ok source F (length ts) ts ltac:(lia) Hr) as (out & q & H1 & H2 & H3 & H4). exists out.
  destruct (root_facts _ _ H1) as (R1 & R2 & R3 & _). split; auto. split; auto. split; [intros f' Hf; symmetry; eapply croot_functional; eauto|]. split; auto.
  split. { rewrite widths_total, R2. apply clexes_total_len. auto. }
  split; auto. split; [apply clexes_length; auto|].
  pose proof (yields_program F q HF HE H2) as Y. rewrite H3 in Y.
  replace (calc_tree source F) with (build_try F (program_calls 0 0 q)); auto.
  destruct (H4 _ _ (at_start _ _ Hl)) as (cur' & buf' & G).
  unfold calc_tree, c_root, cparser_new. rewrite (G _ world_new 0) by (pose proof (clexes_length _ _ Hl); lia).
  unfold build_try, does. cbn [w_env world_new length]. destruct (run_try F world_new (program_calls 0 0 q)); auto.
Qed.
Print Assumptions C50_parses.

Theorem C50_succeeds : forall F source, vec_flavor F -> fl_index F <> IxEmpty ->
  (N.of_nat (5 * length source + 2) < int_max F (fl_width F))%N -> (str_len source <= ix_max F)%N ->
  exists t, calc_tree source F = Ok t.
Proof.
  intros F source HF HE H1 H2. destruct (C50_parses F source HF HE) as (ts & forest & _ & _ & _ & _ & Hw & Hs & Hl & Y1 & Y2).
  destruct Y1 as [Y1|(t & ops & l & Y1 & _)]; eauto. exfalso. apply Y2; auto; lia.
Qed.
Print Assumptions C50_succeeds.

(** ["(1 + 2)"]: the hypotheses hold of a tree that is not trivial. *)
Example C50_inhabited :
  clexes [40; 49; 32; 43; 32; 50; 41]%N [(COpenParen, 1); (CNumber, 1); (CWhitespace, 1); (CPlus, 1); (CWhitespace, 1); (CNumber, 1); (CCloseParen, 1)]%N /\
  (exists t, calc_tree [40; 49; 32; 43; 32; 50; 41]%N flavor_default = Ok t) /\ vec_flavor flavor_default /\ fl_index flavor_default <> IxEmpty.
Proof.
  split. 2: { split; [vm_compute; eexists; reflexivity|]. split; [red; simpl; auto|discriminate]. }
  apply (@clexes_cons COpenParen [40]%N); [constructor; reflexivity|exact I|].
  apply (@clexes_cons CNumber [49]%N); [constructor; reflexivity|reflexivity|].
  apply (@clexes_cons CWhitespace [32]%N); [constructor; reflexivity|reflexivity|].
  apply (@clexes_cons CPlus [43]%N); [constructor; reflexivity|exact I|].
  apply (@clexes_cons CWhitespace [32]%N); [constructor; reflexivity|reflexivity|].
  apply (@clexes_cons CNumber [50]%N); [constructor; reflexivity|reflexivity|].
  apply (@clexes_cons CCloseParen [41]%N); [constructor; reflexivity|exact I|constructor].
Qed.
