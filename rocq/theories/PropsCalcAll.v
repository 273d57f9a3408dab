(** C51: the results of the calculator for every text. *)
From Coq Require Import Lia List NArith ZArith.
Import ListNotations.
From Verif Require Import Base Pointer Index Tree Builder Hist Node Iter Print Spec SpecEq Rep TreeRep SpecProgram Text ClientMath ClientCalc SpecChars SpecCalc
  PropsProgram ClientFacts CalcParse PropsCalc CalcEval PropsCalcEval PropsChars Demo.

(** ** Numbers *)
Lemma digits_some s : forall acc v, digits_value acc s = Some v -> forallb is_digit s = true /\ v = decimal acc s.
Proof.
  induction s as [|c s IH]; intros acc v H; simpl in *; [injection H as <-; auto|].
  destruct (is_digit c) eqn:E; [|discriminate]. destruct (IH _ _ H) as [-> ->]. split; auto. f_equal. apply cdigit_range in E. lia.
Qed.
Lemma digits_decimal s acc : forallb is_digit s = true -> digits_value acc s = Some (decimal acc s).
Proof.
  revert acc. induction s as [|c s IH]; intros acc H; auto. simpl in H. apply andb_prop in H as [H1 H2]. simpl. rewrite H1, IH by auto.
  do 2 f_equal. apply cdigit_range in H1. lia.
Qed.
Lemma i64_some z v : i64_check z = Some v -> v = z /\ in_i64 z.
Proof.
  unfold i64_check, in_i64, i64_min, i64_max. destruct (Z.leb_spec (-9223372036854775808) z), (Z.leb_spec z 9223372036854775807); try discriminate.
  simpl. intros E. injection E as <-. lia.
Qed.
Lemma parse_signed d : parse_i64 d =
  match d with
  | [] => None
  | c :: ds =>
    let '(sign, ds) := if (c =? 43)%N then (1%Z, ds) else if (c =? 45)%N then ((-1)%Z, ds) else (1%Z, d) in
    match ds with [] => None | _ => match digits_value 0 ds with Some v => i64_check (sign * v) | None => None end end
  end.
Proof.
  destruct d as [|c ds]; auto. destruct (N.eqb_spec c 43) as [->|N1]; auto. destruct (N.eqb_spec c 45) as [->|N2]; auto.
  unfold parse_i64. destruct c as [|p]; auto. do 6 (destruct p as [p|p|]; try reflexivity); congruence.
Qed.
Lemma parse_reads d z : parse_i64 d = Some z <-> reads d z.
Proof.
  split.
  - rewrite parse_signed. destruct d as [|c ds]; [discriminate|].
    assert (G : forall sign ds, match ds with [] => None | _ => match digits_value 0 ds with Some v => i64_check (sign * v) | None => None end end = Some z ->
                 all_digits ds /\ z = (sign * decimal 0 ds)%Z /\ in_i64 (sign * decimal 0 ds)).
    { intros sign [|c' s] H; [discriminate|]. destruct (digits_value 0 (c' :: s)) as [v|] eqn:E; [|discriminate].
      apply digits_some in E as [E ->]. apply i64_some in H as [-> H]. split; [split; [discriminate|auto]|auto]. }
    destruct (N.eqb_spec c 43) as [->|N1]; [|destruct (N.eqb_spec c 45) as [->|N2]]; intros H; [apply G in H as (H1 & -> & H2)|apply G in H as (H1 & -> & H2)|apply (G 1%Z (c :: ds)) in H as (H1 & -> & H2)].
    + rewrite Z.mul_1_l in *. constructor; auto.
    + replace (-1 * decimal 0 ds)%Z with (- decimal 0 ds)%Z in * by lia. constructor; auto.
    + rewrite Z.mul_1_l in *. constructor; auto.
  - intros [d' H H'|d' H H'|d' H H'].
    + rewrite parse_digits by auto. apply i64_in; auto.
    + rewrite parse_signed. change (43 =? 43)%N with true. cbv iota. destruct H as [Hn Hd]. destruct d' as [|c' s]; [congruence|].
      rewrite digits_decimal by auto. rewrite Z.mul_1_l. apply i64_in; auto.
    + rewrite parse_signed. change (45 =? 43)%N with false. change (45 =? 45)%N with true. cbv iota. destruct H as [Hn Hd]. destruct d' as [|c' s]; [congruence|].
      rewrite digits_decimal by auto. replace (-1 * decimal 0 (c' :: s))%Z with (- decimal 0 (c' :: s))%Z by lia. apply i64_in; auto.
Qed.

(** ** Operators *)
Lemma calculate_none k : calculate k = None -> operator_of k = None.
Proof. destruct k; auto; discriminate. Qed.
Lemma calculate_some k f e : calculate k = Some (f, e) -> exists o, operator_of k = Some o /\ e = complaint o /\
  (forall a b z, f a b = Some z -> exact o a b = Some z /\ in_i64 z) /\
  (forall a b, f a b = None -> forall z, exact o a b = Some z -> ~ in_i64 z).
Proof.
  intros H.
  assert (K : exists o, k = opk o /\ operator_of k = Some o) by (destruct k; try discriminate; [exists Add|exists Sub|exists Div|exists Mul|exists Pow]; auto).
  destruct K as (o & -> & K). exists o. split; auto. destruct (calculate_op o) as (g & E & G1 & G2). rewrite E in H. injection H as -> <-. split; auto.
  assert (D : forall z, in_i64 z \/ ~ in_i64 z). { intros z. unfold in_i64. destruct (Z_le_dec (-9223372036854775808) z), (Z_le_dec z 9223372036854775807); (left; lia) || (right; lia). }
  split.
  - intros a b z Ef. destruct (exact o a b) as [v|] eqn:Ee.
    + destruct (D v) as [Hv|Hv].
      * rewrite (G1 _ _ _ Ee Hv) in Ef. injection Ef as <-. auto.
      * rewrite G2 in Ef; [discriminate|]. intros z' E'. congruence.
    + rewrite G2 in Ef; [discriminate|]. intros z' E'. congruence.
  - intros a b Ef z Ee Hz. rewrite (G1 _ _ _ Ee Hz) in Ef. discriminate.
Qed.

(** ** Evaluation *)
Lemma node_same s : sh_node s = is_node s. Proof. destruct s as [d sp [|k ks]]; auto. Qed.
Lemma filter_same l : filter sh_node l = filter is_node l.
Proof. apply filter_ext. apply node_same. Qed.
Lemma sevals_answers source :
  (forall s r, sevals source s r -> evaluates source s r) /\
  (forall sp xs r, oevals source sp xs r -> forall kids, filter is_node kids = xs -> evaluates source (Sh COperation sp kids) r) /\
  (forall sp z xs r, sops source sp z xs r -> continues source sp z xs r).
Proof.
  apply evals_ind.
  - intros [k sp kids] E1 E2. simpl in *. subst. constructor.
  - intros [k sp kids] x xs r E1 E2 _ H. simpl in *. subst. constructor. auto.
  - intros [k sp kids] d z E1 E2 E3. simpl in *. subst. econstructor; [apply str_get_part; eauto|apply parse_reads; auto].
  - intros [k sp kids] d E1 E2 E3. simpl in *. subst. econstructor; [apply str_get_part; eauto|]. intros z Hz. apply parse_reads in Hz. congruence.
  - intros [k sp kids] r E1 _ H. simpl in *. subst. apply H. symmetry. apply filter_same.
  - intros [k sp kids] N1 N2 N3. simpl in *. constructor. simpl. intros [X|[X|[X|[]]]]; subst; congruence.
  - intros sp kids E. constructor. auto.
  - intros sp x xs r _ H Hf kids E. eapply ans_first; eauto.
  - intros sp x xs z r _ H1 _ H2 kids E. eapply ans_operation; eauto.
  - constructor.
  - intros sp z [d sd kids] [k sk kk] ks xs E1 E2. simpl in *. subst. constructor. apply calculate_none; auto.
  - intros sp z [d sd kids] [k sk kk] ks [f e] E1 E2. simpl in *. subst. apply calculate_some in E2 as (o & Eo & _). econstructor; eauto.
  - intros sp z [d sd kids] [k sk kk] ks [f e] x xs r E1 E2 _ H Hf. simpl in *. subst. apply calculate_some in E2 as (o & Eo & _). eapply continues_operand; eauto.
  - intros sp z [d sd kids] [k sk kk] ks f e x xs b E1 E2 _ H Ef. simpl in *. subst. apply calculate_some in E2 as (o & Eo & -> & _ & G).
    eapply continues_fails; eauto.
  - intros sp z [d sd kids] [k sk kk] ks f e x xs b z' r E1 E2 _ H Ef _ H2. simpl in *. subst. apply calculate_some in E2 as (o & Eo & -> & G & _).
    destruct (G _ _ _ Ef). eapply continues_next; eauto.
Qed.

(** ** One answer *)
Scheme answers_mind := Induction for evaluates Sort Prop
with continues_mind := Induction for continues Sort Prop.
Combined Scheme answers_ind2 from answers_mind, continues_mind.
Lemma part_unique s a b d d' : part s a b d -> part s a b d' -> d = d'.
Proof. intros H1 H2. apply str_get_part in H1, H2. congruence. Qed.
Lemma reads_unique d z z' : reads d z -> reads d z' -> z = z'.
Proof. intros H1 H2. apply parse_reads in H1, H2. congruence. Qed.
Lemma ok_no_error z : is_error (EvOk z) -> False. Proof. intros (sp & k & H). discriminate. Qed.
Ltac same := repeat match goal with
  | H1 : filter is_node ?k = _, H2 : filter is_node ?k = _ |- _ => rewrite H1 in H2; try discriminate; injection H2 as; subst; clear H1
  | H1 : operator_of ?k = _, H2 : operator_of ?k = _ |- _ => rewrite H1 in H2; try discriminate; injection H2 as; subst; clear H1
  | H1 : part ?s ?a ?b ?d, H2 : part ?s ?a ?b ?d' |- _ => pose proof (part_unique _ _ _ _ _ H1 H2); clear H1; subst
  | IH : forall r, evaluates ?s ?x r -> _ = r, H : evaluates ?s ?x _ |- _ => pose proof (IH _ H); clear H; try discriminate; subst
  | H : EvOk _ = EvOk _ |- _ => injection H as; subst
  | H : is_error (EvOk _) |- _ => destruct (ok_no_error _ H)
  | H1 : exact ?o ?a ?b = _, H2 : exact ?o ?a ?b = _ |- _ => rewrite H1 in H2; try discriminate; injection H2 as; subst; clear H1
  | H1 : exact ?o ?a ?b = Some ?z, H2 : forall z', exact ?o ?a ?b = Some z' -> ~ in_i64 z', H3 : in_i64 ?z |- _ => destruct (H2 _ H1 H3)
  end.
Lemma answers_unique source :
  (forall s r, evaluates source s r -> forall r', evaluates source s r' -> r = r') /\
  (forall sp z xs r, continues source sp z xs r -> forall r', continues source sp z xs r' -> r = r').
Proof.
  apply answers_ind2; intros.
  all: match goal with H : evaluates _ (Sh _ _ _) ?r' |- _ = ?r' => inversion H; subst; clear H | H : continues _ _ _ _ ?r' |- _ = ?r' => inversion H; subst; clear H end.
  all: same; auto; try congruence.
  all: try (match goal with H : ~ In _ _ |- _ => destruct H; simpl; tauto end).
  all: try (match goal with H1 : reads ?d _, H2 : reads ?d _ |- _ => rewrite (reads_unique _ _ _ H1 H2); auto end).
  all: try (match goal with H1 : reads ?d _, H2 : forall z, ~ reads ?d z |- _ => destruct (H2 _ H1) end).
  all: try (match goal with H1 : operator_of ?k = _ |- _ => simpl in H1; discriminate end).
Qed.

(** The whole program, for every text: the tree is the one the grammar gives, and there is one result for
    each top-level node of it, the answer of that node. *)
Theorem C51_answers : forall F source ts forest, vec_flavor F -> fl_index F <> IxEmpty ->
  clexes source ts -> croot ts forest ->
  calculator F source = Err Overflow \/
  exists rs, calculator F source = Ok rs /\ Forall2 (evaluates source) (filter is_node (lay_list 0 forest)) rs /\
    forall rs', Forall2 (evaluates source) (filter is_node (lay_list 0 forest)) rs' -> rs' = rs.
Proof.
  intros F source ts forest HF HE Hl Hc. destruct (C50_parses F source HF HE) as (ts' & forest' & Hl' & Hc' & Hu & _ & _ & _ & _ & Y & _).
  assert (Et : ts' = ts). { apply C50_lexer in Hl', Hl. eapply Enum.enumerates_fun; eauto. } subst ts'.
  rewrite <- (Hu _ Hc) in Y. clear Hu Hc' forest' Hl'.
  unfold calculator. destruct Y as [->|(t & ops & l & -> & Hb & Hd & He & _)]; auto. right. cbn [bind].
  pose proof (built_rep F ops t l HF Hd Hb) as Hrep. pose proof (forest_cut _ _ _ Hl Hc) as Hcut. rewrite <- He in *.
  assert (G : Forall (fun s => exists r, sevals source s r /\ answer r) (filter sh_node (map erase l))).
  { clear - Hcut. induction Hcut as [|s ss H1 H IH]; simpl; auto. destruct (sh_node s); auto. constructor; auto. apply sevals_total; auto. }
  destruct (forall_choice _ _ _ G) as (rs & G1 & G2). exists rs. split; [eapply eval_link; eauto|].
  rewrite filter_same in G1.
  assert (G3 : Forall2 (evaluates source) (filter is_node (map erase l)) rs). { clear - G1. induction G1; constructor; auto. apply sevals_answers; auto. }
  split; auto. clear - G3. induction G3 as [|x y xs ys H H' IH]; intros rs' Hr; inversion Hr; subst; auto. f_equal; auto. destruct (answers_unique source) as [U _]. symmetry. eapply U; eauto.
Qed.
Print Assumptions C51_answers.

(** [1 + 2/0) 7]: an error where the division is, a stray parenthesis, and a number. *)
Example C51_answers_inhabited : vec_flavor flavor_default /\ fl_index flavor_default <> IxEmpty /\
  (exists ts forest, clexes [49; 32; 43; 32; 50; 47; 48; 41; 32; 55]%N ts /\ croot ts forest) /\
  calculator flavor_default [49; 32; 43; 32; 50; 47; 48; 41; 32; 55]%N =
    Ok [EvErr (Span 4 7) EDivideByZero; EvErr (Span 7 9) (EExpected CNumber CError); EvOk 7].
Proof.
  assert (HF : vec_flavor flavor_default) by (red; simpl; auto). assert (HE : fl_index flavor_default <> IxEmpty) by discriminate.
  split; auto. split; auto. split; [|vm_compute; reflexivity].
  destruct (C50_parses flavor_default [49; 32; 43; 32; 50; 47; 48; 41; 32; 55]%N HF HE) as (ts & forest & H1 & H2 & _). eauto.
Qed.
