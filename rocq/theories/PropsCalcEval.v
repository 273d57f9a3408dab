(** C51: evaluation in examples/calculator. *)
From Coq Require Import Lia.
From Verif Require Import Base Pointer Index Tree Builder Hist Node Iter Print Spec SpecEq Rep TreeRep SpecProgram Text ClientMath ClientCalc SpecCalc
  PropsProgram ClientFacts CalcParse PropsCalc CalcEval.

(** ** Every node has a value or an error. *)
Section Total.
Variable source : str.
Definition cut (sp : span) : Prop := exists pre mid post, source = pre ++ mid ++ post /\ sp = Span (str_len pre) (str_len pre + str_len mid).
Inductive all_cut : cshape -> Prop := all_cut_intro s : cut (sh_span s) -> Forall all_cut (sh_kids s) -> all_cut s.
Definition answer (r : evaluation) : Prop := (exists z, r = EvOk z) \/ failed r.

Lemma shape_ind' (P : cshape -> Prop) : (forall s, Forall P (sh_kids s) -> P s) -> forall s, P s.
Proof.
  intros H. fix IH 1. intros [d sp kids]. apply H. simpl. induction kids as [|k kids IHk]; constructor; auto.
Qed.
Lemma sops_total sp n : forall xs base, length xs <= n -> Forall (fun s => exists r, sevals source s r /\ answer r) xs -> Forall (fun s => sh_node s = true) xs ->
  exists r, sops source sp base xs r /\ answer r.
Proof.
  induction n as [|n IH]; intros xs base L H Hn.
  - destruct xs; [|simpl in L; lia]. exists (EvOk base). split; [constructor|left; eauto].
  - destruct xs as [|o xs]; [exists (EvOk base); split; [constructor|left; eauto]|].
    inversion Hn as [|? ? Ho Hn']; subst. unfold sh_node in Ho. destruct (sh_kids o) as [|k ks] eqn:Ek; [discriminate|].
    destruct (calculate (sh_data k)) as [[f e]|] eqn:Ec.
    2: { eexists. split; [eapply so_unexpected; eauto|]. right; red; eauto. }
    destruct xs as [|x xs]; [eexists; split; [eapply so_missing; eauto|]; right; red; eauto|].
    inversion H as [|? ? _ H']; subst. inversion H' as [|? ? (r & Hr & Ha) H'']; subst. inversion Hn'; subst.
    destruct Ha as [(b & ->)|Hf].
    + destruct (f base b) as [base'|] eqn:Ef.
      * destruct (IH xs base') as (r & Hr' & Ha); auto; [simpl in L; lia|]. exists r. split; auto. eapply so_next; eauto.
      * eexists. split; [eapply so_fails; eauto|]. right; red; eauto.
    + exists r. split; [eapply so_operand; eauto|]. right; auto.
Qed.
Lemma sevals_total s : all_cut s -> exists r, sevals source s r /\ answer r.
Proof.
  induction s as [s IH] using shape_ind'. intros H. inversion H as [? Hc Hk]; subst.
  assert (K : Forall (fun s => exists r, sevals source s r /\ answer r) (sh_kids s)).
  { clear - IH Hk. induction Hk; constructor; inversion IH; subst; auto. }
  destruct (sh_data s) eqn:Ed;
    try (eexists; split; [eapply se_other; rewrite Ed; discriminate|right; red; eauto]).
  - destruct Hc as (pre & mid & post & E1 & E2).
    assert (G : str_get source (s_start (sh_span s), s_end (sh_span s)) = Some mid). { rewrite E2, E1. simpl. apply str_get_app. }
    destruct (parse_i64 mid) as [z|] eqn:Ep.
    + exists (EvOk z). split; [eapply se_number; eauto|left; eauto].
    + eexists. split; [eapply se_bad_number; eauto|]. right; red; eauto.
  - assert (K' : Forall (fun s => exists r, sevals source s r /\ answer r) (filter sh_node (sh_kids s)) /\ Forall (fun s => sh_node s = true) (filter sh_node (sh_kids s))).
    { clear - K. induction K as [|x xs Hx H [I1 I2]]; simpl; auto. destruct (sh_node x) eqn:E; auto. }
    destruct K' as [K1 K2]. destruct (filter sh_node (sh_kids s)) as [|x xs] eqn:Ef.
    + eexists. split; [eapply se_operation; auto; rewrite Ef; constructor|]. right; red; eauto.
    + inversion K1 as [|? ? (r & Hr & Ha) K1']; subst. inversion K2; subst. destruct Ha as [(b & ->)|Hf].
      * destruct (sops_total (sh_span s) (length xs) xs b ltac:(lia) K1') as (r & Hr' & Ha); auto. exists r. split; auto. apply se_operation; auto. rewrite Ef. eapply oe_ops; eauto.
      * exists r. split; [|right; auto]. apply se_operation; auto. rewrite Ef. apply oe_first; auto.
  - destruct (sh_kids s) as [|k ks] eqn:Ek.
    + eexists. split; [eapply se_group_none; eauto|]. right; red; eauto.
    + inversion K as [|? ? (r & Hr & Ha) _]; subst. exists r. split; auto. eapply se_group; eauto.
Qed.

(** The nodes of a tree whose leaves spell the source are cut from it at character boundaries. *)
Lemma lay_cut : forall g pieces pre post, map str_len pieces = map snd (leaves g) -> source = pre ++ concat pieces ++ post ->
  all_cut (lay (str_len pre) g) /\ width g = str_len (concat pieces).
Proof.
  fix IH 1. intros [d n|d kids] pieces pre post E1 E2.
  - simpl in E1. destruct pieces as [|p [|? ?]]; try discriminate. injection E1 as <-. simpl in *. rewrite app_nil_r in *. split; auto.
    constructor; simpl; auto. exists pre, p, post. auto.
  - assert (G : forall gs pieces pre post, map str_len pieces = map snd (flat_map leaves gs) -> source = pre ++ concat pieces ++ post ->
       (forall g, In g gs -> True) ->
       Forall all_cut (lay_list (str_len pre) gs) /\ widths gs = str_len (concat pieces)).
    { clear - IH. fix IHl 1. intros [|g gs] pieces pre post E1 E2 _.
      - destruct pieces; [|discriminate]. simpl. split; auto.
      - simpl in E1. rewrite map_app in E1.
        assert (S : exists p1 p2, pieces = p1 ++ p2 /\ map str_len p1 = map snd (leaves g) /\ map str_len p2 = map snd (flat_map leaves gs)).
        { clear - E1. revert E1. generalize (map snd (leaves g)) as a, (map snd (flat_map leaves gs)) as b. intros a. revert pieces.
          induction a as [|x a IH]; intros pieces b E; simpl in E. { exists [], pieces. auto. }
          destruct pieces as [|p pieces]; [discriminate|]. injection E as E0 E. destruct (IH _ _ E) as (p1 & p2 & -> & H1 & H2). exists (p :: p1), p2. simpl. rewrite E0, H1. auto. }
        destruct S as (p1 & p2 & -> & S1 & S2). rewrite concat_app in *. rewrite <- app_assoc in E2.
        destruct (IH g p1 pre (concat p2 ++ post) S1 E2) as [C1 W1].
        destruct (IHl gs p2 (pre ++ concat p1) post S2) as [C2 W2]; [rewrite <- app_assoc; auto|auto|].
        rewrite str_len_app in C2. split.
        + simpl. constructor; auto. rewrite W1. auto.
        + rewrite str_len_app, <- W1, <- W2. auto. }
    destruct (G kids pieces pre post E1 E2 (fun _ _ => I)) as [C W]. rewrite lay_node. split; [|exact W]. constructor; simpl; auto.
    rewrite W. exists pre, (concat pieces), post. auto.
Qed.
End Total.

(** The pieces of text of the leaves. *)
Lemma clexes_pieces s ts : clexes s ts -> exists pieces, map str_len pieces = map snd ts /\ concat pieces = s.
Proof.
  induction 1 as [|k a rest ts H1 H2 H (ps & E1 & E2)]; [exists []; auto|]. exists (a :: ps). simpl. rewrite E1, E2. auto.
Qed.
Lemma eof_pieces lvs : forall pieces, map str_len pieces = map snd (filter (fun t => negb (csyntax_eqb (fst t) CEof)) lvs) ->
  (total_len lvs <= total_len (filter (fun t => negb (csyntax_eqb (fst t) CEof)) lvs))%N ->
  exists pieces', map str_len pieces' = map snd lvs /\ concat pieces' = concat pieces.
Proof.
  assert (M : forall l, (total_len (filter (fun t : ctok => negb (csyntax_eqb (fst t) CEof)) l) <= total_len l)%N).
  { induction l as [|t l IH]; simpl; [lia|]. destruct (csyntax_eqb (fst t) CEof); simpl; lia. }
  induction lvs as [|[k n] lvs IH]; intros pieces E L; simpl in *.
  - destruct pieces; [|discriminate]. exists []. auto.
  - specialize (M lvs). destruct (csyntax_eqb k CEof); simpl in *.
    + destruct (IH pieces E) as (p & P1 & P2); [lia|]. exists ([] :: p). simpl. rewrite P1. split; auto. f_equal. lia.
    + destruct pieces as [|p0 pieces]; [discriminate|]. injection E as E0 E. destruct (IH pieces E) as (p & P1 & P2); [lia|]. exists (p0 :: p). simpl. rewrite P1, P2, E0. auto.
Qed.

Lemma forest_cut source ts forest : clexes source ts -> croot ts forest -> Forall (all_cut source) (lay_list 0 forest).
Proof.
  intros Hl Hc. destruct (root_facts _ _ Hc) as (R1 & R2 & _). specialize (R1 (clexes_real _ _ Hl)).
  destruct (clexes_pieces _ _ Hl) as (pieces & P1 & P2). rewrite <- R1 in P1, R2. unfold real_tokens in P1, R2. unfold leaf_total in R2.
  destruct (eof_pieces _ _ P1 ltac:(lia)) as (pieces' & Q1 & Q2).
  destruct (lay_cut source (GNode CError forest) pieces' [] []) as [C _]; [exact Q1|rewrite Q2, P2, app_nil_r; auto|].
  inversion C as [s _ Ck]; subst. rewrite lay_node in Ck. exact Ck.
Qed.

Lemma forall_choice {A B} (R : A -> B -> Prop) (P : B -> Prop) l : Forall (fun a => exists b, R a b /\ P b) l -> exists bs, Forall2 R l bs /\ Forall P bs.
Proof. induction 1 as [|a l (b & H1 & H2) H (bs & I1 & I2)]; eauto. Qed.

(** ** Theorems. *)

(** The whole program always ends, without a panic, with a list of values and errors (or Overflow while building). *)
Theorem C51_total : forall F source, vec_flavor F -> fl_index F <> IxEmpty ->
  calculator F source = Err Overflow \/
  exists rs, calculator F source = Ok rs /\ Forall (fun r => (exists z, r = EvOk z) \/ (exists sp k, r = EvErr sp k)) rs.
Proof.
  intros F source HF HE. destruct (C50_parses F source HF HE) as (ts & forest & Hl & Hc & _ & _ & _ & _ & _ & Y & _). unfold calculator.
  destruct Y as [->|(t & ops & l & -> & Hb & Hd & He & _)]; auto. right. cbn [bind].
  pose proof (built_rep F ops t l HF Hd Hb) as Hrep. pose proof (forest_cut _ _ _ Hl Hc) as Hcut. rewrite <- He in Hcut.
  assert (G : Forall (fun s => exists r, sevals source s r /\ answer r) (filter sh_node (map erase l))).
  { clear - Hcut. induction Hcut as [|s ss H1 H IH]; simpl; auto. destruct (sh_node s); auto. constructor; auto. apply sevals_total; auto. }
  destruct (forall_choice _ _ _ G) as (rs & G1 & G2). exists rs. split; auto. eapply eval_link; eauto.
Qed.
Print Assumptions C51_total.

(** ** Expressions: their tokens. *)
Definition cspace (s : str) : list ctok := match s with [] => [] | _ => [(CWhitespace, str_len s)] end.
Definition opk (o : coperator) : csyntax := match o with Add => CPlus | Sub => CMinus | Mul => CMul | Div => CDiv | Pow => CPow end.
Fixpoint cexp_tokens (e : cexp) : list ctok :=
  match e with
  | ENum s d => cspace s ++ [(CNumber, str_len d)]
  | EPar s e s' => cspace s ++ (COpenParen, 1%N) :: cexp_tokens e ++ cspace s' ++ [(CCloseParen, 1%N)]
  | EBin l s o r => cexp_tokens l ++ cspace s ++ (opk o, 1%N) :: cexp_tokens r
  end.
Fixpoint body_text (e : cexp) : str :=
  match e with
  | ENum _ d => d
  | EPar _ e s' => 40%N :: cexp_text e ++ s' ++ [41%N]
  | EBin l s o r => body_text l ++ s ++ coperator_char o :: cexp_text r
  end.
Lemma text_body e : cexp_text e = leading_space e ++ body_text e.
Proof. induction e; simpl; auto. rewrite IHe1, <- !app_assoc. auto. Qed.
Lemma cspace_blank s : Forall cblank (cspace s).
Proof. destruct s; simpl; auto. constructor; auto. reflexivity. Qed.
Lemma cspace_total s : total_len (cspace s) = str_len s.
Proof. destruct s; simpl; auto. lia. Qed.
#[local] Hint Resolve cspace_blank : core.

Definition no_digit (s : str) : Prop := match s with [] => True | c :: _ => is_digit c = false end.
Definition no_space (s : str) : Prop := match s with [] => True | c :: _ => is_whitespace c = false end.
Lemma space_no_digit s rest : all_space s -> no_digit rest -> no_digit (s ++ rest).
Proof.
  intros H1 H2. destruct s as [|c s]; auto. simpl. unfold all_space in H1. simpl in H1. apply andb_prop in H1 as [H1 _].
  destruct (is_digit c) eqn:E; auto. rewrite (cdigit_not_space c E) in H1. discriminate.
Qed.
Lemma clexes_space s rest ts : all_space s -> no_space rest -> clexes rest ts -> clexes (s ++ rest) (cspace s ++ ts).
Proof.
  intros H1 H2 H. destruct s as [|c s]; auto. simpl cspace. cbn [app]. change (c :: s ++ rest) with ((c :: s) ++ rest). constructor; auto.
  - unfold all_space in H1. simpl in H1. apply andb_prop in H1 as [H1 H3]. constructor; auto.
Qed.
Lemma clexes_punct c k rest ts : punct c = Some k -> len_utf8 c = 1%N -> clexes rest ts -> clexes (c :: rest) ((k, 1%N) :: ts).
Proof.
  intros H1 H2 H. change (c :: rest) with ([c] ++ rest). replace 1%N with (str_len [c]) by (simpl; lia). constructor; auto.
  - constructor; auto. - eapply punct_ends; eauto.
Qed.
Lemma clexes_exp e : well_formed e -> forall rest ts, no_digit rest -> clexes rest ts -> clexes (cexp_text e ++ rest) (cexp_tokens e ++ ts).
Proof.
  induction e as [s d|s e IH s'|l IHl s o r IHr]; intros W rest ts N H; simpl in *.
  - destruct W as (W1 & W2 & W3). rewrite <- !app_assoc. destruct d as [|c d]; [congruence|]. simpl in W3. apply andb_prop in W3 as [W3 W4]. apply clexes_space; auto.
    + simpl. apply cdigit_not_space. auto.
    + cbn [app]. change (c :: d ++ rest) with ((c :: d) ++ rest). constructor; auto. constructor; auto.
  - destruct W as (W1 & W2 & W3). rewrite <- !app_assoc. cbn [app]. rewrite <- !app_assoc. apply clexes_space; [auto|reflexivity|]. apply clexes_punct; [reflexivity|reflexivity|].
    apply IH; auto; [apply space_no_digit; auto; reflexivity|]. apply clexes_space; [auto|reflexivity|]. apply clexes_punct; [reflexivity|reflexivity|auto].
  - destruct W as (W1 & W2 & W3 & W4 & W5). rewrite <- !app_assoc. cbn [app]. apply IHl; auto.
    + apply space_no_digit; auto. destruct o; reflexivity.
    + apply clexes_space; auto; [destruct o; reflexivity|]. apply clexes_punct; [destruct o; reflexivity|destruct o; reflexivity|]. apply IHr; auto.
Qed.

(** ** Expressions: their trees and the values of those. *)
Definition nodes (c : N) (gs : list (gtree csyntax)) : list cshape := filter sh_node (lay_list c gs).
Lemma nodes_app c a b : nodes c (a ++ b) = nodes c a ++ nodes (c + widths a)%N b.
Proof. unfold nodes. rewrite lay_app, filter_app. auto. Qed.
Lemma nodes_leaf l : forall c, nodes c (map cleaf l) = [].
Proof. induction l as [|t l IH]; intros c; auto. unfold nodes in *. simpl. apply IH. Qed.
Lemma nodes_tok c d n gs : nodes c (GTok d n :: gs) = nodes (c + n)%N gs. Proof. reflexivity. Qed.
Lemma nodes_node c d gs : gs <> [] -> forall gs', nodes c (GNode d gs :: gs') = lay c (GNode d gs) :: nodes (c + widths gs)%N gs'.
Proof. intros H gs'. destruct gs; [congruence|]. reflexivity. Qed.
Lemma widths_app {T} (a b : list (gtree T)) : widths (a ++ b) = (widths a + widths b)%N.
Proof. unfold widths. induction a as [|g a IH]; auto. cbn [app fold_right]. rewrite IH. lia. Qed.
Lemma widths_leaf l : widths (map cleaf l) = total_len l.
Proof. rewrite widths_total. apply lt_leaf. Qed.
Lemma widths_cons {T} (g : gtree T) gs : widths (g :: gs) = (width g + widths gs)%N. Proof. reflexivity. Qed.
Lemma width_node {T} (d : T) gs : width (GNode d gs) = widths gs. Proof. reflexivity. Qed.
Lemma width_tok {T} (d : T) n : width (GTok d n) = n. Proof. reflexivity. Qed.
Lemma str_len_cons c s : str_len (c :: s) = (len_utf8 c + str_len s)%N. Proof. reflexivity. Qed.
Lemma len_open : len_utf8 40 = 1%N. Proof. reflexivity. Qed.
Lemma len_close : len_utf8 41 = 1%N. Proof. reflexivity. Qed.
Lemma widths_operation op gs : widths (operation_of op gs) = widths gs.
Proof. rewrite !widths_total. apply lt_operation. Qed.

Section Values.
Variable source : str.
Definition chain (c : N) (acc : list (gtree csyntax)) (v : outcome) : Prop := forall sp rest,
  match v with
  | Value z => forall r, sops source sp z rest r -> oevals source sp (nodes c acc ++ rest) r
  | Failure k => exists sp', oevals source sp (nodes c acc ++ rest) (EvErr sp' k)
  end.
Definition single (c : N) (gs : list (gtree csyntax)) (v : outcome) : Prop := exists s r, nodes c gs = [s] /\ sevals source s r /\ says r v.
Lemma single_chain c gs v : single c gs v -> chain c gs v.
Proof.
  intros (s & r & E & H & Hs) sp rest. unfold chain. rewrite E. destruct v as [z|k]; simpl in Hs.
  - subst r. intros r Hr. simpl. eapply oe_ops; eauto.
  - destruct Hs as (sp' & ->). exists sp'. apply oe_first; auto. red; eauto.
Qed.
Lemma chain_operation c acc ws v : acc <> [] -> chain c acc v -> exists r, sevals source (lay c (GNode COperation (acc ++ map cleaf ws))) r /\ says r v.
Proof.
  intros Hn H. rewrite lay_node. set (s := Sh COperation _ _). assert (E : filter sh_node (sh_kids s) = nodes c acc ++ []).
  { simpl. change (nodes c (acc ++ map cleaf ws) = nodes c acc ++ []). rewrite nodes_app, nodes_leaf. auto. }
  specialize (H (sh_span s) []). destruct v as [z|k].
  - exists (EvOk z). split; [|reflexivity]. apply se_operation; auto. rewrite E. apply H. constructor.
  - destruct H as (sp' & H). exists (EvErr sp' k). split; [|simpl; eauto]. apply se_operation; auto. rewrite E. exact H.
Qed.
End Values.

Definition lpow (o : coperator) : N := match o with Add | Sub => 1 | Mul | Div => 3 | Pow => 7 end%N.
Definition lev (e : cexp) : N := match e with EBin _ _ o _ => lpow o | _ => 9%N end.
Lemma opk_binding o : binding (opk o) = Some (lpow o, lpow o + 1)%N. Proof. destruct o; auto. Qed.
Lemma lev_left o e : precedence o <= top e -> (lpow o <= lev e)%N.
Proof. destruct e as [| |? ? o' ?]; destruct o; simpl; try lia; destruct o'; simpl; lia. Qed.
Lemma lev_right o e : precedence o < top e -> (lpow o + 1 <= lev e)%N.
Proof. destruct e as [| |? ? o' ?]; destruct o; simpl; try lia; destruct o'; simpl; lia. Qed.
(** The first operator after blanks binds at most so tightly. *)
Definition below (lim : N) (R : list ctok) : Prop := forall ws r, R = ws ++ r -> Forall cblank ws -> cnot_blank r ->
  forall lp rp, binding (fst (next_token r)) = Some (lp, rp) -> (lp <= lim)%N.
Lemma below_le a b R : below a R -> (a <= b)%N -> below b R.
Proof. intros H L ws r E B N1 lp rp Hb. specialize (H ws r E B N1 lp rp Hb). lia. Qed.
Lemma below_op ws k n R lim lp rp : Forall cblank ws -> binding k = Some (lp, rp) -> (lp <= lim)%N -> below lim (ws ++ (k, n) :: R).
Proof.
  intros B Hb L ws' r E B' N1 lp' rp' Hb'. apply csplit_unique in E as [<- <-]; auto.
  - simpl in Hb'. rewrite Hb in Hb'. injection Hb' as <- <-. auto.
  - intros t r' Et. injection Et as <- _. unfold cblank. simpl. eapply binding_not_space; eauto.
Qed.

Definition parsed_body (e : cexp) (min : N) (R : list ctok) : Prop :=
  exists acc op ws R', R = ws ++ R' /\ Forall cblank ws /\ acc <> [] /\
    (forall out op' rest, ctail min op acc R' out op' rest ->
       cexpr min (cexp_tokens e ++ R) (map cleaf (cspace (leading_space e)) ++ operation_of op' out) rest) /\
    widths acc = (str_len (body_text e) + total_len ws)%N /\
    (forall source pre post v, source = pre ++ body_text e ++ post -> value_of e v ->
       chain source (str_len pre) acc v /\ (op = false -> single source (str_len pre) acc v)) /\
    (op = false -> ~ is_parenthesized e -> exists d g, acc = [GNode d [g]]).
Definition parsed (e : cexp) (min : N) (R : list ctok) : Prop :=
  exists gs ws R', R = ws ++ R' /\ Forall cblank ws /\ cnot_blank R' /\ gs <> [] /\ cexpr min (cexp_tokens e ++ R) gs R' /\
    widths gs = (str_len (cexp_text e) + total_len ws)%N /\
    (forall source pre post v, source = pre ++ cexp_text e ++ post -> value_of e v ->
       single source (str_len pre) gs v /\
       (leading_space e = [] -> ~ is_parenthesized e -> exists g gs' r, gs = g :: gs' /\ sevals source (lay (str_len pre) g) r /\ says r v)).

Lemma body_parsed e min R : parsed_body e min R -> (forall ws r, R = ws ++ r -> Forall cblank ws -> cnot_blank r -> ~ joins min r) -> parsed e min R.
Proof.
  intros (acc & op & ws & R' & -> & B & Hn & Hc & Hw & Hv & Hs) Hj. destruct (csplit_blank R') as (ws2 & R2 & -> & B2 & N2).
  exists (map cleaf (cspace (leading_space e)) ++ operation_of op (acc ++ map cleaf ws2)), (ws ++ ws2), R2.
  assert (N0 : operation_of op (acc ++ map cleaf ws2) <> []). { destruct op; simpl; [discriminate|]. destruct acc; [congruence|discriminate]. }
  split; [rewrite <- app_assoc; auto|]. split; [apply Forall_app; auto|]. split; auto.
  split. { intros E. apply app_eq_nil in E as [_ E]. congruence. }
  split. { apply Hc. constructor; auto. apply (Hj (ws ++ ws2)); auto. rewrite <- app_assoc; auto. apply Forall_app; auto. }
  split. { rewrite widths_app, widths_operation, widths_app, !widths_leaf, total_app, cspace_total, text_body, str_len_app. lia. }
  intros source pre post v E Ev. rewrite text_body, <- app_assoc in E.
  destruct (Hv source (pre ++ leading_space e) post v) as [H1 H2]; [rewrite <- app_assoc; auto|auto|].
  assert (Ep : str_len (pre ++ leading_space e) = (str_len pre + str_len (leading_space e))%N) by apply str_len_app.
  destruct op.
  - destruct (chain_operation source _ acc ws2 v Hn H1) as (r & Hr & Hsay). split.
    + exists (lay (str_len (pre ++ leading_space e)) (GNode COperation (acc ++ map cleaf ws2))), r. split; auto.
      rewrite nodes_app, nodes_leaf. simpl app. rewrite widths_leaf, cspace_total, <- Ep. simpl operation_of. rewrite nodes_node; auto.
      intros Ea. apply app_eq_nil in Ea as [Ea _]. auto.
    + intros El _. rewrite El in *. simpl. simpl in Hr. rewrite app_nil_r in *. eexists _, [], r. split; [reflexivity|]. split; auto.
  - destruct (H2 eq_refl) as (s & r & E1 & E2 & E3). split.
    + exists s, r. split; auto. rewrite nodes_app, nodes_leaf. simpl app. rewrite widths_leaf, cspace_total, <- Ep. simpl operation_of.
      rewrite nodes_app, nodes_leaf, E1. auto.
    + intros El Hp. destruct (Hs eq_refl Hp) as (d & g & ->). rewrite El in *. simpl. rewrite app_nil_r in *.
      rewrite nodes_node in E1 by discriminate. pose proof (f_equal (hd s) E1) as E4. cbn [hd] in E4. exists (GNode d [g]), (map cleaf ws2), r. rewrite E4. auto.
Qed.

Lemma parse_digits d : all_digits d -> parse_i64 d = i64_check (decimal 0 d).
Proof.
  assert (G : forall s acc, forallb is_digit s = true -> digits_value acc s = Some (decimal acc s)).
  { induction s as [|c s IH]; intros acc H; auto. simpl in H. apply andb_prop in H as [H1 H2]. simpl. rewrite H1, IH by auto.
    do 2 f_equal. apply cdigit_range in H1. lia. }
  intros [H1 H2]. destruct d as [|c s]; [congruence|].
  assert (E : parse_i64 (c :: s) = match digits_value 0 (c :: s) with Some v => i64_check (1 * v) | None => None end).
  { simpl in H2. apply andb_prop in H2 as [H2 _]. apply cdigit_range in H2.
    assert (C : (c = 48 \/ c = 49 \/ c = 50 \/ c = 51 \/ c = 52 \/ c = 53 \/ c = 54 \/ c = 55 \/ c = 56 \/ c = 57)%N) by lia.
    repeat (destruct C as [->|C]; [reflexivity|]). subst c. reflexivity. }
  rewrite E, (G (c :: s) 0%Z H2). f_equal. apply Z.mul_1_l.
Qed.
Lemma i64_in z : in_i64 z -> i64_check z = Some z.
Proof. unfold in_i64, i64_check, i64_min, i64_max. intros [H1 H2]. apply Z.leb_le in H1, H2. rewrite H1, H2. auto. Qed.
Lemma i64_out z : ~ in_i64 z -> i64_check z = None.
Proof.
  unfold in_i64, i64_check, i64_min, i64_max. intros H.
  destruct (Z.leb_spec (-9223372036854775808) z); auto. destruct (Z.leb_spec z 9223372036854775807); auto. exfalso. apply H. lia.
Qed.
Lemma calculate_op o : exists f, calculate (opk o) = Some (f, complaint o) /\ (forall a b z, exact o a b = Some z -> in_i64 z -> f a b = Some z) /\
  (forall a b, (forall z, exact o a b = Some z -> ~ in_i64 z) -> f a b = None).
Proof.
  destruct o; simpl; eexists; (split; [reflexivity|]); split; intros a b.
  - intros z E H. injection E as <-. apply i64_in; auto.
  - intros H. apply i64_out. auto.
  - intros z E H. injection E as <-. apply i64_in; auto.
  - intros H. apply i64_out. auto.
  - intros z E H. injection E as <-. apply i64_in; auto.
  - intros H. apply i64_out. auto.
  - intros z E H. unfold checked_div. destruct (b =? 0)%Z; [discriminate|]. injection E as <-. apply i64_in; auto.
  - intros H. unfold checked_div. destruct (b =? 0)%Z; auto. apply i64_out. auto.
  - intros z E H. unfold checked_pow, u32_max. destruct ((0 <=? b)%Z && (b <=? 4294967295)%Z); [|discriminate]. injection E as <-. apply i64_in; auto.
  - intros H. unfold checked_pow, u32_max. destruct ((0 <=? b)%Z && (b <=? 4294967295)%Z); auto. apply i64_out. auto.
Qed.

Lemma exp_parsed e : well_formed e -> plain_groups e -> forall min R, (min <= lev e)%N -> below (lev e) R -> parsed_body e min R.
Proof.
  induction e as [s d|s e IH s'|l IHl s o r IHr]; intros W P min R Hm Hb; simpl in W, P.
  - exists [GNode CNumber [GTok CNumber (str_len d)]], false, [], R. split; auto. split; auto. split; [discriminate|].
    split. { intros out op' rest Ht. simpl. rewrite <- app_assoc. apply cexpr_number; auto. }
    split. { unfold widths. simpl. lia. }
    split; [|eauto].
    intros source pre post v E Ev. simpl in E.
    assert (S1 : single source (str_len pre) [GNode CNumber [GTok CNumber (str_len d)]] v).
    { exists (lay (str_len pre) (GNode CNumber [GTok CNumber (str_len d)])).
      assert (G : str_get source (s_start (sh_span (lay (str_len pre) (GNode CNumber [GTok CNumber (str_len d)]))), s_end (sh_span (lay (str_len pre) (GNode CNumber [GTok CNumber (str_len d)])))) = Some d).
      { simpl. rewrite N.add_0_r, E. apply str_get_app. }
      pose proof (parse_digits d (proj2 W)) as Hp. inversion Ev as [? ? Hi|? ? Hi| | | | |]; subst.
      - exists (EvOk (decimal 0 d)). split; [apply nodes_node; discriminate|]. split; [|reflexivity]. eapply se_number; eauto. rewrite Hp. apply i64_in; auto.
      - eexists. split; [apply nodes_node; discriminate|]. split; [eapply se_bad_number; eauto; rewrite Hp; apply i64_out; auto|]. simpl. eauto. }
    split; auto. apply single_chain. auto.
  - destruct W as (W1 & W2 & W3), P as (P1 & P2 & P3).
    assert (N0 : cnot_blank ((CCloseParen, 1%N) :: R)) by (apply cnot_blank_cons; discriminate).
    assert (J : forall ws r, cspace s' ++ (CCloseParen, 1%N) :: R = ws ++ r -> Forall cblank ws -> cnot_blank r -> r = (CCloseParen, 1%N) :: R).
    { intros ws r E B N1. apply csplit_unique in E as [_ <-]; auto. }
    destruct (body_parsed e 0 (cspace s' ++ (CCloseParen, 1%N) :: R)) as (gs & ws & R' & E1 & B1 & N1 & N2 & C1 & C2 & C3).
    { apply IH; auto; [lia|]. intros ws r E B N1 lp rp Hl. rewrite (J ws r E B N1) in Hl. discriminate. }
    { intros ws r E B N1 (lp & rp & Hl & _). rewrite (J ws r E B N1) in Hl. discriminate. }
    apply csplit_unique in E1 as [<- <-]; auto.
    exists [GTok COpenParen 1; GNode CGroup gs; GTok CCloseParen 1], false, [], R. split; auto. split; auto. split; [discriminate|].
    split. { intros out op' rest Ht. simpl. rewrite <- !app_assoc. cbn [app]. rewrite <- !app_assoc.
      apply (@cexpr_group min (cspace s) 1%N (cexp_tokens e ++ cspace s' ++ (CCloseParen, 1%N) :: R) gs [] 1%N R out op' rest); auto. }
    split. { cbn [body_text]. rewrite !widths_cons, !width_tok, width_node, C2, cspace_total, str_len_cons, !str_len_app, str_len_cons, len_open, len_close.
      change (str_len []) with 0%N. change (total_len []) with 0%N. change (@widths csyntax []) with 0%N. lia. }
    split; [|intros _ []; exact I].
    intros source pre post v E Ev. simpl in E. rewrite <- !app_assoc in E. inversion Ev as [| |? ? ? ? Ev'| | | |]; subst v0 s0 e0 s'0.
    destruct (C3 source (pre ++ [40%N]) (s' ++ [41%N] ++ post) v) as [_ C4]; auto. { rewrite E, <- !app_assoc. auto. }
    destruct (C4 P2 P3) as (g & gs' & r & -> & Hr & Hs). clear C4.
    assert (S1 : single source (str_len pre) [GTok COpenParen 1; GNode CGroup (g :: gs'); GTok CCloseParen 1] v).
    { exists (lay (str_len pre + 1)%N (GNode CGroup (g :: gs'))), r. split; [rewrite nodes_tok, nodes_node by discriminate; reflexivity|]. split; auto.
      rewrite lay_node. eapply se_group; [reflexivity|reflexivity|]. rewrite str_len_app in Hr. exact Hr. }
    split; auto. apply single_chain. auto.
  - destruct W as (W1 & W2 & W3 & W4 & W5), P as (P1 & P2).
    pose proof (opk_binding o) as Hob.
    destruct (IHl W1 P1 min (cspace s ++ (opk o, 1%N) :: cexp_tokens r ++ R)) as (acc & op & ws1 & R1 & E1 & B1 & N1 & C1 & C2 & C3 & C4).
    { simpl in Hm. pose proof (lev_left o l W4). lia. }
    { eapply below_op; eauto. apply lev_left; auto. }
    assert (S1 : exists ws2, R1 = ws2 ++ (opk o, 1%N) :: cexp_tokens r ++ R /\ Forall cblank ws2 /\ cspace s = ws1 ++ ws2).
    { destruct (csplit_blank R1) as (ws2 & R2 & -> & B2 & N2). rewrite app_assoc in E1. apply csplit_unique in E1 as [E1 <-]; eauto.
      - apply Forall_app; auto.
      - apply cnot_blank_cons. eapply binding_not_space; eauto. }
    destruct S1 as (ws2 & -> & B2 & Es). clear E1.
    destruct (body_parsed r (lpow o + 1) R) as (gs & wr & R' & -> & Br & Nr & Nn & D1 & D2 & D3).
    { apply IHr; auto; [apply lev_right; auto|]. eapply below_le; eauto. simpl. pose proof (lev_right o r W5). lia. }
    { intros ws r' E B N2 (lp & rp & Hl & Hle). pose proof (Hb ws r' E B N2 lp rp Hl) as Hx. simpl in Hx. lia. }
    exists (acc ++ map cleaf ws2 ++ GNode COperator [GTok (opk o) 1] :: gs), true, wr, R'. split; auto. split; auto.
    split; [destruct acc; [congruence|discriminate]|].
    split. { intros out op' rest Ht. simpl. rewrite <- !app_assoc. cbn [app]. apply C1. simpl in Hm. eapply ctail_more; eauto. }
    assert (Hs : (total_len ws1 + total_len ws2 = str_len s)%N). { rewrite <- cspace_total, Es, total_app. auto. }
    split. { cbn [body_text]. rewrite !widths_app, widths_leaf, !widths_cons, width_node, widths_cons, width_tok, C2, D2, !str_len_app, str_len_cons.
      assert (L1 : len_utf8 (coperator_char o) = 1%N) by (destruct o; reflexivity). rewrite L1. change (@widths csyntax []) with 0%N. lia. }
    split; [|discriminate].
    intros source pre post v E Ev. simpl in E. rewrite <- !app_assoc in E. split; [|discriminate].
    destruct (calculate_op o) as (f & F1 & F2 & F3).
    set (pos := (str_len pre + widths acc + total_len ws2)%N).
    assert (En : nodes (str_len pre) (acc ++ map cleaf ws2 ++ GNode COperator [GTok (opk o) 1] :: gs) =
       nodes (str_len pre) acc ++ lay pos (GNode COperator [GTok (opk o) 1]) :: nodes (pos + 1)%N gs).
    { rewrite !nodes_app, nodes_leaf, widths_leaf. simpl app. rewrite nodes_node by discriminate. reflexivity. }
    assert (Ep : str_len (pre ++ body_text l ++ s ++ [coperator_char o]) = (pos + 1)%N).
    { unfold pos. rewrite !str_len_app, C2. assert (L1 : str_len [coperator_char o] = 1%N) by (destruct o; reflexivity). rewrite L1. lia. }
    assert (Ek : sh_kids (lay pos (GNode COperator [GTok (opk o) 1])) = [lay pos (GTok (opk o) 1)]) by reflexivity.
    assert (Dr : forall v, value_of r v -> single source (pos + 1)%N gs v).
    { intros vr Hvr. rewrite <- Ep. apply (D3 source _ post vr); auto. rewrite E, <- !app_assoc. auto. }
    assert (Dl : forall v, value_of l v -> chain source (str_len pre) acc v).
    { intros vl Hvl. apply (C3 source pre (s ++ (coperator_char o :: cexp_text r) ++ post) vl); auto. }
    intros sp rest. rewrite En, <- app_assoc. cbn [app].
    inversion Ev as [| | |? ? ? ? a b z Vl Vr Hx Hi|? ? ? ? a b Vl Vr Hx|? ? ? ? k Vl|? ? ? ? a k Vl Vr]; subst.
    + intros q Hq. destruct (Dr _ Vr) as (x & rx & Ex & H1 & H2). simpl in H2. subst rx. rewrite Ex. apply (Dl _ Vl sp). eapply so_next; eauto.
    + destruct (Dr _ Vr) as (x & rx & Ex & H1 & H2). simpl in H2. subst rx. rewrite Ex. eexists. apply (Dl _ Vl sp). eapply so_fails; eauto.
    + apply (Dl _ Vl sp).
    + destruct (Dr _ Vr) as (x & rx & Ex & H1 & H2). simpl in H2. destruct H2 as (sp' & ->). rewrite Ex. exists sp'. apply (Dl _ Vl sp). eapply so_operand; eauto. red; eauto.
Qed.

(** Every expression has exactly one value. *)
Theorem C51_values : forall e, (exists v, value_of e v) /\ (forall v v', value_of e v -> value_of e v' -> v = v').
Proof.
  assert (D : forall z, in_i64 z \/ ~ in_i64 z). { intros z. unfold in_i64. destruct (Z_le_dec (-9223372036854775808) z), (Z_le_dec z 9223372036854775807); (left; lia) || (right; lia). }
  induction e as [s d|s e [(v & Hv) IH] s'|l [(vl & Hl) IHl] s o r [(vr & Hr) IHr]].
  - split. { destruct (D (decimal 0 d)); eexists; [apply value_num|apply value_num_big]; auto. }
    intros v v' H H'. inversion H; inversion H'; subst; auto; contradiction.
  - split. { exists v. constructor. auto. } intros u u' H H'. inversion H; inversion H'; subst. auto.
  - split.
    + destruct vl as [a|k]; [|eexists; eapply value_left; eauto]. destruct vr as [b|k]; [|eexists; eapply value_right; eauto].
      destruct (exact o a b) as [z|] eqn:E; [destruct (D z)|]; eexists; [eapply value_bin; eauto|eapply value_bin_bad; eauto; intros z' E'; congruence|eapply value_bin_bad; eauto; intros z' E'; congruence].
    + clear Hl Hr vl vr. intros v v' H H'. inversion H; inversion H'; subst; auto;
        repeat match goal with H1 : value_of l _, H2 : value_of l _ |- _ => pose proof (IHl _ _ H1 H2); clear H1 end;
        repeat match goal with H1 : value_of r _, H2 : value_of r _ |- _ => pose proof (IHr _ _ H1 H2); clear H1 end; try congruence.
      * exfalso. injection H0 as ->. injection H1 as ->. eapply H16; eauto.
      * exfalso. injection H0 as ->. injection H1 as ->. eapply H7; eauto.
Qed.
Print Assumptions C51_values.

(** Arithmetic expressions, followed by any space, have one result: their value. *)
Theorem C51_expressions : forall F e space v, vec_flavor F -> fl_index F <> IxEmpty ->
  well_formed e -> plain_groups e -> all_space space -> value_of e v ->
  calculator F (cexp_text e ++ space) = Err Overflow \/
  exists r, calculator F (cexp_text e ++ space) = Ok [r] /\ says r v.
Proof.
  intros F e space v HF HE W P Hs Hv.
  assert (Hl : clexes (cexp_text e ++ space) (cexp_tokens e ++ cspace space)).
  { apply clexes_exp; auto.
    - pose proof (space_no_digit space [] Hs I) as G. rewrite app_nil_r in G. auto.
    - pose proof (clexes_space space [] [] Hs I clexes_nil) as G. rewrite !app_nil_r in G. auto. }
  assert (J : forall ws r, cspace space = ws ++ r -> Forall cblank ws -> cnot_blank r -> r = []).
  { intros ws r E B N1. rewrite <- (app_nil_r (cspace space)) in E. apply csplit_unique in E as [_ <-]; auto. intros t r'; discriminate. }
  destruct (body_parsed e 0 (cspace space)) as (gs & ws & R' & E1 & B1 & N1 & N2 & C1 & C2 & C3).
  { apply exp_parsed; auto; [lia|]. intros ws r E B N1 lp rp Hb. rewrite (J ws r E B N1) in Hb. discriminate. }
  { intros ws r E B N1 (lp & rp & Hb & _). rewrite (J ws r E B N1) in Hb. discriminate. }
  rewrite (J ws R' E1 B1 N1) in *.
  destruct (C3 (cexp_text e ++ space) [] space v eq_refl Hv) as [(s & r & Es & Hr & Hsay) _].
  destruct (C50_parses F (cexp_text e ++ space) HF HE) as (ts & forest & Hl' & Hc & _ & _ & _ & _ & _ & Y & _).
  assert (Et : ts = cexp_tokens e ++ cspace space).
  { apply C50_lexer in Hl', Hl. eapply Enum.enumerates_fun; eauto. }
  subst ts.
  assert (Ef : forest = gs).
  { symmetry. eapply croot_functional; [|exact Hc]. pose proof (@croot_end (cexp_tokens e ++ cspace space) gs [] C1 (Forall_nil _)) as G. simpl in G. rewrite app_nil_r in G. auto. }
  subst forest. unfold calculator. destruct Y as [->|(t & ops & l & -> & Hb & Hd & He & _)]; auto. right. cbn [bind]. exists r. split; auto.
  eapply eval_link; eauto. { eapply built_rep; eauto. } rewrite He. change (lay_list 0 gs) with (lay_list (str_len []) gs).
  fold (nodes (str_len []) gs). rewrite Es. auto.
Qed.
Print Assumptions C51_expressions.

(** Not all parentheses: ["( 1)"] and ["((1))"] are errors. *)
Theorem C51_parentheses_refuted : exists e1 e2 sp1 sp2, well_formed e1 /\ well_formed e2 /\
  value_of e1 (Value 1) /\ cexp_text e1 = [40; 32; 49; 41]%N /\ calculator flavor_default (cexp_text e1) = Ok [EvErr sp1 (EExpected CNumber CWhitespace)] /\
  value_of e2 (Value 1) /\ cexp_text e2 = [40; 40; 49; 41; 41]%N /\ calculator flavor_default (cexp_text e2) = Ok [EvErr sp2 (EExpected CNumber COpenParen)].
Proof.
  exists (EPar [] (ENum [32]%N [49]%N) []), (EPar [] (EPar [] (ENum [] [49]%N) []) []). do 2 eexists.
  assert (V : forall s, value_of (ENum s [49]%N) (Value 1)). { intros s. apply (value_num s [49]%N). unfold in_i64. simpl. lia. }
  split; [simpl; unfold all_space, all_digits; repeat split; discriminate|]. split; [simpl; unfold all_space, all_digits; repeat split; discriminate|].
  split; [apply value_par, V|]. split; [reflexivity|]. split; [vm_compute; reflexivity|].
  split; [apply value_par, value_par, V|]. split; [reflexivity|]. vm_compute; reflexivity.
Qed.
Print Assumptions C51_parentheses_refuted.

(** [2^(1+2)^2 * 10 - 7 / 2 ]: not trivial. *)
Definition demo_exp : cexp :=
  EBin (EBin (EBin (EBin (ENum [] [50]%N) [] Pow (EPar [] (EBin (ENum [] [49]%N) [] Add (ENum [] [50]%N)) [])) [] Pow (ENum [] [50]%N)) [32]%N Mul (ENum [32]%N [49; 48]%N))
    [32]%N Sub (EBin (ENum [32]%N [55]%N) [32]%N Div (ENum [32]%N [50]%N)).
Example C51_inhabited : well_formed demo_exp /\ plain_groups demo_exp /\ value_of demo_exp (Value 637) /\
  calculator flavor_default (cexp_text demo_exp ++ [32]%N) = Ok [EvOk 637] /\
  (exists sp, calculator flavor_default [49; 47; 48]%N = Ok [EvErr sp EDivideByZero]) /\
  calculator flavor_default [49; 32; 50]%N = Ok [EvOk 1; EvOk 2] /\
  (exists sp sp', calculator flavor_default [40; 43; 33]%N = Ok [EvErr sp (EExpected CNumber CError); EvErr sp' (EExpected CNumber CError)]).
Proof.
  split; [simpl; unfold all_space, all_digits; repeat split; try discriminate; simpl; lia|]. split; [simpl; repeat split; auto|].
  split.
  { assert (V : forall s d, in_i64 (decimal 0 d) -> value_of (ENum s d) (Value (decimal 0 d))) by (intros; apply value_num; auto).
    unfold demo_exp. eapply value_bin with (a := 640%Z) (b := 3%Z); [| |reflexivity|unfold in_i64; lia].
    - eapply value_bin with (a := 64%Z) (b := 10%Z); [|apply (V _ [49; 48]%N); unfold in_i64; simpl; lia|reflexivity|unfold in_i64; lia].
      eapply value_bin with (a := 8%Z) (b := 2%Z); [|apply (V _ [50]%N); unfold in_i64; simpl; lia|reflexivity|unfold in_i64; lia].
      eapply value_bin with (a := 2%Z) (b := 3%Z); [apply (V _ [50]%N); unfold in_i64; simpl; lia| |reflexivity|unfold in_i64; lia].
      apply value_par. eapply value_bin with (a := 1%Z) (b := 2%Z); [apply (V _ [49]%N); unfold in_i64; simpl; lia|apply (V _ [50]%N); unfold in_i64; simpl; lia|reflexivity|unfold in_i64; lia].
    - eapply value_bin with (a := 7%Z) (b := 2%Z); [apply (V _ [55]%N); unfold in_i64; simpl; lia|apply (V _ [50]%N); unfold in_i64; simpl; lia|reflexivity|unfold in_i64; lia]. }
  split; [vm_compute; reflexivity|]. split; [vm_compute; eauto|]. split; [vm_compute; reflexivity|]. vm_compute. eauto.
Qed.
