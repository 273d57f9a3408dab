(** Lemmas for C72: the arms of [tree!] and the syntax of literals. *)
From Coq Require Import Lia.
From Verif Require Import Base Index Tree Builder Hist Print Macro SpecLiteral.
Open Scope nat_scope.

Section Lit.
Context {A T : Type}.
Variables (val : tt A -> T) (num : tt A -> N).
Notation tts := (list (tt A)).
Notation first_arm := (first_arm val num).
Notation macro_calls := (macro_calls val num).
Notation written := (written val num).
Notation item := (item val num).

Fixpoint tt_size (x : tt A) : nat :=
  match x with TParen ts | TBrace ts => S (list_sum (map tt_size ts)) | _ => 1 end.
Fixpoint is_listing (ts : tts) : bool :=
  match ts with
  | [] => true
  | x :: ts => is_expr x && match ts with [] => true | TComma :: ts => is_listing ts | _ => false end
  end.
Lemma is_expr_paren ts : is_expr (TParen ts) = is_listing ts.
Proof. reflexivity. Qed.
Lemma list_sum_cons a l : list_sum (a :: l) = a + list_sum l. Proof. auto. Qed.
Lemma expr_both n : (forall x : tt A, tt_size x <= n -> (is_expr x = true <-> expression x)) /\
  (forall ts : tts, list_sum (map tt_size ts) <= n -> (is_listing ts = true <-> listing ts)).
Proof.
  induction n as [|n [IH1 IH2]].
  - split; [intros [] H; simpl in H; lia|]. intros [|x ts] H; [split; intros; constructor|]. destruct x; simpl in H; lia.
  - assert (A1 : forall x : tt A, tt_size x <= S n -> (is_expr x = true <-> expression x)).
    { intros x H. destruct x as [a| | |ts|ts].
      - split; intros; constructor.
      - split; intros E; [discriminate|inversion E].
      - split; intros E; [discriminate|inversion E].
      - rewrite is_expr_paren. cbn [tt_size] in H. specialize (IH2 ts ltac:(lia)). split; intros E.
        + constructor. apply IH2. auto.
        + inversion E; subst. apply IH2. auto.
      - split; intros E; [discriminate|inversion E]. }
    split; auto. 
    assert (G : forall k ts, length ts <= k -> list_sum (map tt_size ts) <= S n -> (is_listing ts = true <-> listing ts)).
    { induction k as [|k IHk]; intros [|x ts] Hk H; try (split; intros; constructor); try (simpl in Hk; lia).
      cbn [map] in H. rewrite list_sum_cons in H. specialize (A1 x ltac:(lia)). simpl in Hk. destruct ts as [|y ts].
      - cbn [is_listing]. rewrite andb_true_r. split; intros E; [constructor; apply A1; auto|]. inversion E; subst. apply A1. auto.
      - cbn [is_listing]. cbn [map] in H. rewrite list_sum_cons in H. simpl in Hk. destruct y; try (rewrite andb_false_r; split; intros E; [discriminate|inversion E]).
        specialize (IHk ts ltac:(lia) ltac:(lia)). rewrite andb_true_iff. split.
        + intros [E1 E2]. constructor; [apply A1|apply IHk]; auto.
        + intros E. inversion E; subst. split; [apply A1|apply IHk]; auto. }
    intros ts H. apply (G (length ts)); auto.
Qed.
Lemma is_expr_iff (x : tt A) : is_expr x = true <-> expression x.
Proof. apply (proj1 (expr_both (tt_size x))). auto. Qed.
Lemma expr_true (x : tt A) : expression x -> is_expr x = true. Proof. apply is_expr_iff. Qed.
Lemma pair_exprs (a b : tt A) : expression (TParen [a; TComma; b]) -> expression a /\ expression b.
Proof. intros H. inversion H as [|? L]; subst. inversion L as [| |? ? H1 L1]; subst. inversion L1; subst. auto. Qed.

(** One item, as the arms see it. *)
Inductive raw : tts -> list (piece A T) -> Prop :=
| raw_empty x : expression x -> ~ is_pair x -> raw [x] [Call (OTokenEmpty (val x))]
| raw_token x n : expression x -> expression n -> ~ is_pair n -> raw [TParen [x; TComma; n]] [Call (OToken (val x) (num n))]
| raw_span x s e : expression x -> expression s -> expression e ->
    raw [TParen [x; TComma; TParen [s; TComma; e]]] [Call (OTokenWith (val x) (Span (num s) (num e)))]
| raw_node x ks : expression x -> ~ is_spanned x -> raw [x; TArrow; TBrace ks] [Call (OOpen (val x)); Again ks; Call OClose]
| raw_node_span x s e ks : expression x -> expression s -> expression e ->
    raw [TParen [x; TComma; TParen [s; TComma; e]]; TArrow; TBrace ks] [Call (OOpenWith (val x) (Span (num s) (num e))); Again ks; Call OClose].
Inductive seen : tts -> list (piece A T) -> Prop :=
| seen_none : seen [] []
| seen_last ts ps : raw ts ps -> seen ts ps
| seen_comma ts ps : raw ts ps -> seen (ts ++ [TComma]) ps
| seen_more ts ps rest : raw ts ps -> rest <> [] -> seen (ts ++ TComma :: rest) (ps ++ [Again rest]).

Lemma pair_dec (x : tt A) : (exists a b, x = TParen [a; TComma; b]) \/ ~ is_pair x.
Proof.
  destruct x as [a| | |ts|ts]; try (right; intros (p & q & E); discriminate).
  destruct ts as [|a [|[] [|b [|c ts]]]]; try (right; intros (p & q & E); discriminate). eauto.
Qed.
Lemma spanned_dec (x : tt A) : (exists a s e, x = TParen [a; TComma; TParen [s; TComma; e]]) \/ ~ is_spanned x.
Proof.
  destruct (pair_dec x) as [(a & p & ->)|H].
  - destruct (pair_dec p) as [(s & e & ->)|H]; [left; eauto|]. right. intros (a' & p' & Hp & E). injection E as -> ->. auto.
  - right. intros (a & p & _ & E). apply H. exists a, p. auto.
Qed.
Lemma not_pair x r : ~ is_pair x -> arm2 val num (x :: r) = None /\ arm3 val num (x :: r) = None /\ arm4 val num (x :: r) = None /\ arm5 val num (x :: r) = None.
Proof.
  intros H. destruct x as [a| | |ts|ts]; try (repeat split; reflexivity).
  destruct ts as [|a [|b [|c [|d ts]]]]; try (repeat split; try reflexivity; destruct b; reflexivity); destruct b; try (repeat split; reflexivity).
  - exfalso. apply H. exists a, c. auto.
  - cbn. destruct c as [| | |[|? [|[] [|? []]]]|]; auto.
Qed.
Lemma not_spanned x r : ~ is_spanned x -> arm2 val num (x :: r) = None /\ arm4 val num (x :: r) = None /\ arm8 val num (x :: r) = None /\ arm10 val num (x :: r) = None.
Proof.
  intros H. destruct x as [a| | |ts|ts]; try (repeat split; reflexivity).
  destruct ts as [|a [|b [|c [|d ts]]]]; try (repeat split; try reflexivity; destruct b; reflexivity); destruct b; try (repeat split; reflexivity).
  - destruct c as [| | |[|s [|[] [|e []]]]|]; try (repeat split; reflexivity). exfalso. apply H. exists a, (TParen [s; TComma; e]). split; auto. exists s, e. auto.
  - cbn. destruct c as [| | |[|? [|[] [|? []]]]|]; auto.
Qed.
Lemma rest_comma (r : tts) : opt_comma r = true -> r = [] \/ r = [TComma].
Proof. destruct r as [|[] [|? ?]]; simpl; intros E; try discriminate; auto. Qed.
Lemma rest_more (rest : tts) : rest <> [] -> opt_comma (TComma :: rest) = false.
Proof. destruct rest; [congruence|auto]. Qed.

Ltac arms := unfold Macro.first_arm; cbn [fold_right].
(** An item followed by anything. *)
Lemma arm_pair_other x n r : ~ is_pair n -> arm2 val num (TParen [x; TComma; n] :: r) = None /\ arm4 val num (TParen [x; TComma; n] :: r) = None.
Proof.
  intros H. destruct (not_spanned (TParen [x; TComma; n]) r) as (A1 & A2 & _); auto. intros (a & p & Hp & E). injection E as -> ->. auto.
Qed.
Lemma seen_arm ts ps : seen ts ps -> first_arm ts = Some ps.
Proof.
  assert (G : forall ts ps c rest, raw ts ps -> (c = [] \/ c = [TComma]) -> rest <> [] -> first_arm (ts ++ c) = Some ps /\ first_arm (ts ++ TComma :: rest) = Some (ps ++ [Again rest])).
  { clear ts ps. intros ts ps c rest H Hc Hr. assert (Oc : opt_comma c = true) by (destruct Hc as [-> | ->]; auto). destruct rest as [|z rest]; [congruence|]. assert (Or : opt_comma (TComma :: z :: rest) = false) by reflexivity.
    destruct H as [x H1 H2|x n H1 H2 H3|x s e H1 H2 H3|x ks H1 H2|x s e ks H1 H2 H3]; cbn [app].
    - destruct (not_pair x c H2) as (A2 & A3 & A4 & A5). destruct (not_pair x (TComma :: z :: rest) H2) as (B2 & B3 & B4 & B5). arms.
      rewrite A2, A3, A4, A5, B2, B3, B4, B5. cbn [arm1 arm6 arm7]. rewrite (expr_true x H1), Oc, ?Or. auto.
    - destruct (arm_pair_other x n c H3) as [A2 A4]. destruct (arm_pair_other x n (TComma :: z :: rest) H3) as [B2 B4]. arms. rewrite A2, B2, B4.
      cbn [arm1 arm3 arm5]. rewrite (expr_true x H1), (expr_true n H2), Oc, ?Or. auto.
    - arms. cbn [arm1 arm2 arm3 arm4]. rewrite (expr_true x H1), (expr_true s H2), (expr_true e H3), Oc, ?Or. cbn [andb]. rewrite andb_false_r. auto.
    - destruct (not_spanned x (TArrow :: TBrace ks :: c) H2) as (A2 & A4 & A8 & A10). destruct (not_spanned x (TArrow :: TBrace ks :: TComma :: z :: rest) H2) as (B2 & B4 & B8 & B10).
      assert (A3 : forall r, arm3 val num (x :: TArrow :: r) = None).
      { intros r. destruct (pair_dec x) as [(a & b & ->)|Np]; [|apply (not_pair x _ Np)]. cbn [arm3 opt_comma]. rewrite andb_false_r. auto. }
      assert (A5 : forall r, arm5 val num (x :: TArrow :: r) = None).
      { intros r. destruct (pair_dec x) as [(a & b & ->)|Np]; [|apply (not_pair x _ Np)]. reflexivity. }
      arms. rewrite A2, B2, A4, B4, !A3, !A5, A8, B8, A10, B10. cbn [arm1 arm6 arm7 arm9 arm11 opt_comma]. rewrite (expr_true x H1), Oc, ?Or. auto.
    - arms. cbn [arm1 arm2 arm3 arm4 arm5 arm6 arm7 arm8 arm9 arm10 opt_comma]. rewrite !andb_false_r. rewrite (expr_true x H1), (expr_true s H2), (expr_true e H3), Oc, ?Or. cbn [andb].
      assert (Ee : is_expr (TParen [x; TComma; TParen [s; TComma; e]]) && false = false) by apply andb_false_r. auto. }
  destruct 1 as [|ts ps H|ts ps H|ts ps rest H Hr]; [reflexivity| | |].
  - destruct (G ts ps [] [TComma] H) as [E _]; auto; [discriminate|]. rewrite app_nil_r in E. auto.
  - destruct (G ts ps [TComma] [TComma] H) as [E _]; auto. discriminate.
  - destruct (G ts ps [] rest H) as [_ E]; auto.
Qed.

Lemma raw_of y : expression y -> (exists ps, raw [y] ps) /\ forall ks, exists ps, raw [y; TArrow; TBrace ks] ps.
Proof.
  intros H. destruct (pair_dec y) as [(a & b & ->)|N].
  - destruct (pair_exprs a b H) as [Ha Hb]. destruct (pair_dec b) as [(s & e & ->)|N].
    + destruct (pair_exprs s e Hb) as [Hs He]. split; [eexists; apply raw_span; auto|]. intros ks. eexists. apply raw_node_span; auto.
    + split; [eexists; apply raw_token; auto|]. intros ks. eexists. apply raw_node; auto. intros (a' & p' & Hp & E). injection E as -> ->. auto.
  - split; [eexists; apply raw_empty; auto|]. intros ks. eexists. apply raw_node; auto. intros (a' & p' & _ & E). apply N. exists a', p'. auto.
Qed.
Inductive outline : tts -> Prop :=
| ol_none : outline []
| ol_last y c : expression y -> c = [] \/ c = [TComma] -> outline (y :: c)
| ol_more y rest : expression y -> outline (y :: TComma :: rest)
| ol_node y ks c : expression y -> c = [] \/ c = [TComma] -> outline (y :: TArrow :: TBrace ks :: c)
| ol_node_more y ks rest : expression y -> outline (y :: TArrow :: TBrace ks :: TComma :: rest).
Lemma outline_seen ts : outline ts -> exists ps, seen ts ps.
Proof.
  assert (G : forall ts0 ps0 c, raw ts0 ps0 -> c = [] \/ c = [TComma] -> exists ps, seen (ts0 ++ c) ps).
  { intros ts0 ps0 c H [-> | ->]; exists ps0; [rewrite app_nil_r; constructor; auto|apply seen_comma; auto]. }
  assert (G2 : forall ts0 ps0 rest, raw ts0 ps0 -> exists ps, seen (ts0 ++ TComma :: rest) ps).
  { intros ts0 ps0 [|z rest] H; [exists ps0; apply seen_comma; auto|]. eexists. apply seen_more; eauto. discriminate. }
  destruct 1 as [|y c H Hc|y rest H|y ks c H Hc|y ks rest H]; [eexists; constructor| | | |]; destruct (raw_of y H) as [(ps & R) R2].
  - apply (G [y] ps c R Hc).
  - apply (G2 [y] ps rest R).
  - destruct (R2 ks) as (qs & Q). apply (G [y; TArrow; TBrace ks] qs c Q Hc).
  - destruct (R2 ks) as (qs & Q). apply (G2 [y; TArrow; TBrace ks] qs rest Q).
Qed.
Lemma pair_expr x n : is_expr x = true -> is_expr n = true -> @expression A (TParen [x; TComma; n]).
Proof. intros H1 H2. apply is_expr_iff in H1, H2. constructor. apply li_more; auto. apply li_last; auto. Qed.
Lemma spanned_expr x s e : is_expr x = true -> is_expr s = true -> is_expr e = true -> @expression A (TParen [x; TComma; TParen [s; TComma; e]]).
Proof. intros H1 H2 H3. apply pair_expr; auto. apply is_expr_iff. apply pair_expr; auto. Qed.
Ltac split_if := repeat match goal with
  | E : (if ?b then _ else _) = Some _ |- _ => destruct b eqn:?; [|discriminate]
  | E : _ && _ = true |- _ => apply andb_true_iff in E as [? ?]
  | E : opt_comma _ = true |- _ => apply rest_comma in E end.
Lemma arm_outline ts ps : first_arm ts = Some ps -> outline ts.
Proof.
  arms. intros E. destruct ts as [|y r]; [constructor|]. cbn [arm1] in E.
  destruct (arm2 val num (y :: r)) eqn:E2. { clear E. unfold arm2 in E2. destruct y as [| | |[|x [|[] [|[| | |[|s [|[] [|e []]]]|] []]]]|]; try discriminate. split_if. constructor; auto. apply spanned_expr; auto. }
  destruct (arm3 val num (y :: r)) eqn:E3. { clear E. unfold arm3 in E3. destruct y as [| | |[|x [|[] [|n []]]]|]; try discriminate. split_if. constructor; auto. apply pair_expr; auto. }
  destruct (arm4 val num (y :: r)) eqn:E4. { clear E. unfold arm4 in E4. destruct y as [| | |[|x [|[] [|[| | |[|s [|[] [|e []]]]|] []]]]|]; try discriminate. destruct r as [|[] r]; try discriminate. split_if. apply ol_more. apply spanned_expr; auto. }
  destruct (arm5 val num (y :: r)) eqn:E5. { clear E. unfold arm5 in E5. destruct y as [| | |[|x [|[] [|n []]]]|]; try discriminate. destruct r as [|[] r]; try discriminate. split_if. apply ol_more. apply pair_expr; auto. }
  destruct (arm6 val (y :: r)) eqn:E6. { clear E. unfold arm6 in E6. split_if. constructor; auto. apply is_expr_iff; auto. }
  destruct (arm7 val (y :: r)) eqn:E7. { clear E. unfold arm7 in E7. destruct r as [|[] r]; try discriminate. split_if. apply ol_more. apply is_expr_iff; auto. }
  destruct (arm8 val num (y :: r)) eqn:E8. { clear E. unfold arm8 in E8. destruct y as [| | |[|x [|[] [|[| | |[|s [|[] [|e []]]]|] []]]]|]; try discriminate. destruct r as [|[] [|[] r]]; try discriminate. split_if. apply ol_node; auto. apply spanned_expr; auto. }
  destruct (arm9 val (y :: r)) eqn:E9. { clear E. unfold arm9 in E9. destruct r as [|[] [|[] r]]; try discriminate. split_if. apply ol_node; auto. apply is_expr_iff; auto. }
  destruct (arm10 val num (y :: r)) eqn:E10. { clear E. unfold arm10 in E10. destruct y as [| | |[|x [|[] [|[| | |[|s [|[] [|e []]]]|] []]]]|]; try discriminate. destruct r as [|[] [|[] [|[] r]]]; try discriminate. split_if. apply ol_node_more; auto. apply spanned_expr; auto. }
  destruct (arm11 val (y :: r)) eqn:E11; [|discriminate]. clear E. unfold arm11 in E11. destruct r as [|[] [|[] [|[] r]]]; try discriminate. split_if. apply ol_node_more; auto. apply is_expr_iff; auto.
Qed.
Lemma arm_iff ts ps : first_arm ts = Some ps <-> seen ts ps.
Proof.
  split; [|apply seen_arm]. intros E. destruct (outline_seen ts (arm_outline ts ps E)) as (ps' & H). pose proof (seen_arm ts ps' H) as E'. congruence.
Qed.

(** ** Whole literals *)
Lemma item_raw l ts (H : item l ts) : exists ps, raw ts ps.
Proof.
  destruct H; eexists.
  - apply raw_empty; auto.
  - apply raw_token; auto.
  - apply raw_span; auto.
  - apply raw_node; auto.
  - apply raw_node_span; auto.
Qed.
Definition kids_of (l : lit T) : option (list (lit T)) := match l with LNode _ ks | LNodeSpan _ _ ks => Some ks | _ => None end.
Lemma levels1_kids l : levels1 l = match kids_of l with Some ks => levels ks | None => 0 end.
Proof. destruct l; try reflexivity; simpl; induction kids as [|x kids IH]; auto; destruct kids; auto. Qed.
(** What the pieces of an item come to. *)
Definition run_pieces (limit : nat) (ps : list (piece A T)) : option (list (op T)) :=
  fold_right (fun p acc => match p, acc with
                                   | _, None => None
                                   | Call o, Some ops => Some (o :: ops)
                                   | Again ts, Some ops => match macro_calls limit ts with Some more => Some (more ++ ops) | None => None end
                                   end) (Some []) ps.
Lemma macro_step limit ts : macro_calls (S limit) ts = match first_arm ts with None => None | Some ps => run_pieces limit ps end.
Proof. reflexivity. Qed.
Lemma run_again limit ps rest : run_pieces limit (ps ++ [Again rest]) =
  match macro_calls limit rest, run_pieces limit ps with Some more, Some ops => Some (ops ++ more) | _, _ => None end.
Proof.
  induction ps as [|p ps IH]; cbn [app].
  - cbn. destruct (macro_calls limit rest); auto. rewrite app_nil_r. auto.
  - change (run_pieces limit (p :: ps ++ [Again rest])) with (match p, run_pieces limit (ps ++ [Again rest]) with
                                   | _, None => None
                                   | Call o, Some ops => Some (o :: ops)
                                   | Again ts, Some ops => match macro_calls limit ts with Some more => Some (more ++ ops) | None => None end
                                   end). rewrite IH.
    change (run_pieces limit (p :: ps)) with (match p, run_pieces limit ps with
                                   | _, None => None
                                   | Call o, Some ops => Some (o :: ops)
                                   | Again ts, Some ops => match macro_calls limit ts with Some more => Some (more ++ ops) | None => None end
                                   end).
    destruct (macro_calls limit rest) as [more|], (run_pieces limit ps) as [ops|]; destruct p as [o|ts]; auto; destruct (macro_calls limit ts) as [m|]; auto. rewrite app_assoc. auto.
Qed.

Definition exact (limit : nat) : Prop := forall ts ops, macro_calls limit ts = Some ops <-> exists ls, written ls ts /\ ops = flat_map expand ls /\ levels ls <= limit.
Lemma raw_exact limit ts ps : exact limit -> raw ts ps -> forall ops, run_pieces limit ps = Some ops <-> exists l, item l ts /\ ops = expand l /\ levels1 l <= limit.
Proof.
  intros IH H ops. destruct H as [x H1 H2|x n H1 H2 H3|x s e H1 H2 H3|x ks H1 H2|x s e ks H1 H2 H3].
  - cbn. split; [intros E; injection E as <-; exists (LEmpty (val x)); split; [constructor; auto|split; auto; simpl; lia]|]. intros (l & Hl & -> & _). inversion Hl; subst; try (simpl; auto; fail); exfalso; apply H2; eexists _, _; eauto.
  - cbn. split; [intros E; injection E as <-; exists (LTok (val x) (num n)); split; [constructor; auto|split; auto; simpl; lia]|]. intros (l & Hl & -> & _). inversion Hl as [? ? Np|? ? ? ? Np|? s e| |]; subst; auto.
    + exfalso. apply Np. eexists _, _; eauto.
    + exfalso. apply H3. eexists _, _; eauto.
  - cbn. split; [intros E; injection E as <-; exists (LTokSpan (val x) (Span (num s) (num e))); split; [constructor; auto|split; auto; simpl; lia]|]. intros (l & Hl & -> & _). inversion Hl as [? ? Np|? ? ? ? Np|? s' e'| |]; subst; auto.
    + exfalso. apply Np. eexists _, _; eauto.
    + exfalso. apply Np. eexists _, _; eauto.
  - cbn. destruct (macro_calls limit ks) as [more|] eqn:Em.
    + apply IH in Em as (kids & Hk & -> & Hv). split.
      * intros E. injection E as <-. exists (LNode (val x) kids). split; [constructor; auto|]. split; [reflexivity|]. rewrite levels1_kids. simpl. auto.
      * intros (l & Hl & -> & Hl2). inversion Hl as [| | |? kids' ? Hx Ns Hw|? s e kids' ? Hx Hs He Hw]; subst.
        -- rewrite levels1_kids in Hl2. simpl in Hl2. assert (Em : macro_calls limit ks = Some (flat_map expand kids')) by (apply IH; eauto).
           assert (Em2 : macro_calls limit ks = Some (flat_map expand kids)) by (apply IH; eauto). rewrite Em in Em2. injection Em2 as <-. reflexivity.
        -- exfalso. apply H2. eexists _, _. split; [|reflexivity]. eexists _, _. eauto.
    + split; [discriminate|]. intros (l & Hl & -> & Hl2). exfalso. inversion Hl as [| | |? kids' ? Hx Ns Hw|? s e kids' ? Hx Hs He Hw]; subst.
      * rewrite levels1_kids in Hl2. simpl in Hl2. assert (Em2 : macro_calls limit ks = Some (flat_map expand kids')) by (apply IH; eauto). congruence.
      * apply H2. eexists _, _. split; [|reflexivity]. eexists _, _. eauto.
  - cbn. destruct (macro_calls limit ks) as [more|] eqn:Em.
    + apply IH in Em as (kids & Hk & -> & Hv). split.
      * intros E. injection E as <-. exists (LNodeSpan (val x) (Span (num s) (num e)) kids). split; [constructor; auto|]. split; [reflexivity|]. rewrite levels1_kids. simpl. auto.
      * intros (l & Hl & -> & Hl2). inversion Hl as [| | |? kids' ? Hx Ns Hw|? s' e' kids' ? Hx Hs He Hw]; subst.
        -- exfalso. apply Ns. eexists _, _. split; [|reflexivity]. eexists _, _. eauto.
        -- rewrite levels1_kids in Hl2. simpl in Hl2. assert (Em : macro_calls limit ks = Some (flat_map expand kids')) by (apply IH; eauto).
           assert (Em2 : macro_calls limit ks = Some (flat_map expand kids)) by (apply IH; eauto). rewrite Em in Em2. injection Em2 as <-. reflexivity.
    + split; [discriminate|]. intros (l & Hl & -> & Hl2). exfalso. inversion Hl as [| | |? kids' ? Hx Ns Hw|? s' e' kids' ? Hx Hs He Hw]; subst.
      * apply Ns. eexists _, _. split; [|reflexivity]. eexists _, _. eauto.
      * rewrite levels1_kids in Hl2. simpl in Hl2. assert (Em2 : macro_calls limit ks = Some (flat_map expand kids')) by (apply IH; eauto). congruence.
Qed.

Lemma item_some l ts : item l ts -> ts <> [].
Proof. destruct 1; discriminate. Qed.
Lemma written_some y ls ts : written (y :: ls) ts -> ts <> [].
Proof. intros H. inversion H; subst; try (eapply item_some; eauto; fail); destruct ts0; discriminate. Qed.
Lemma all_exact limit : exact limit.
Proof.
  induction limit as [|n IH]; intros ts ops.
  - split; [discriminate|]. intros (ls & _ & _ & H). destruct ls as [|? []]; simpl in H; lia.
  - rewrite macro_step. split.
    + intros E. destruct (first_arm ts) as [ps|] eqn:Ef; [|discriminate]. apply arm_iff in Ef. destruct Ef as [|ts ps H|ts ps H|ts ps rest H Hr].
      * injection E as <-. exists []. split; [constructor|]. simpl. split; auto. lia.
      * apply (raw_exact n ts ps IH H) in E as (l & Hl & -> & Hv). exists [l]. split; [constructor; auto|]. split; [simpl; rewrite app_nil_r; auto|]. simpl. lia.
      * apply (raw_exact n ts ps IH H) in E as (l & Hl & -> & Hv). exists [l]. split; [apply wr_last_comma; auto|]. split; [simpl; rewrite app_nil_r; auto|]. simpl. lia.
      * rewrite run_again in E. destruct (macro_calls n rest) as [more|] eqn:Em; [|discriminate]. destruct (run_pieces n ps) as [o1|] eqn:Ep; [|discriminate]. injection E as <-.
        apply (raw_exact n ts ps IH H) in Ep as (l & Hl & -> & Hv). apply IH in Em as (ls & Hw & -> & Hv2). destruct ls as [|y ls]; [inversion Hw; subst; congruence|].
        exists (l :: y :: ls). split; [apply wr_more; auto|]. split; [reflexivity|]. cbn [levels] in *. lia.
    + intros (ls & Hw & -> & Hv). destruct Hw as [|l ts Hl|l ts Hl|l ts y ls rest Hl Hw].
      * reflexivity.
      * destruct (item_raw l ts Hl) as (ps & R). rewrite (seen_arm ts ps (seen_last ts ps R)). apply (raw_exact n ts ps IH R). exists l. split; auto. simpl in Hv. split; [simpl; rewrite app_nil_r; auto|lia].
      * destruct (item_raw l ts Hl) as (ps & R). rewrite (seen_arm _ ps (seen_comma ts ps R)). apply (raw_exact n ts ps IH R). exists l. split; auto. simpl in Hv. split; [simpl; rewrite app_nil_r; auto|lia].
      * destruct (item_raw l ts Hl) as (ps & R). pose proof (written_some _ _ _ Hw) as Hr. rewrite (seen_arm _ _ (seen_more ts ps rest R Hr)), run_again.
        change (levels (l :: y :: ls)) with (S (Nat.max (levels1 l) (levels (y :: ls)))) in Hv.
        assert (E1 : macro_calls n rest = Some (flat_map expand (y :: ls))) by (apply IH; exists (y :: ls); split; auto; split; auto; lia).
        assert (E2 : run_pieces n ps = Some (expand l)) by (apply (raw_exact n ts ps IH R); exists l; split; auto; split; auto; lia).
        rewrite E1, E2. reflexivity.
Qed.

(** The calls tell the literal. *)
Definition stops (r : list (op T)) : Prop := match r with [] => True | OClose :: _ => True | _ => False end.
Lemma expand_inj : forall n (ls ls' : list (lit T)) r r', length (flat_map expand ls) <= n -> stops r -> stops r' ->
  flat_map expand ls ++ r = flat_map expand ls' ++ r' -> ls = ls' /\ r = r'.
Proof.
  induction n as [|n IH]; intros ls ls' r r' Hn Hr Hr' E.
  - destruct ls as [|l ls]; [|destruct l; simpl in Hn; lia]. destruct ls' as [|l' ls']; [auto|]. exfalso. destruct l'; cbn in E; rewrite E in Hr; exact Hr.
  - destruct ls as [|l ls], ls' as [|l' ls']; auto.
    + exfalso. destruct l'; cbn in E; rewrite E in Hr; exact Hr.
    + exfalso. destruct l; cbn in E; rewrite <- E in Hr'; exact Hr'.
    + cbn [flat_map] in *. rewrite app_length in Hn. destruct l as [d|d len|d sp|d kids|d sp kids], l' as [d'|d' len'|d' sp'|d' kids'|d' sp' kids']; cbn [expand app] in E; try discriminate; cbn [expand length] in Hn.
      * injection E as -> E. destruct (IH ls ls' r r' ltac:(lia) Hr Hr' E) as [-> ->]. auto.
      * injection E as -> -> E. destruct (IH ls ls' r r' ltac:(lia) Hr Hr' E) as [-> ->]. auto.
      * injection E as -> -> E. destruct (IH ls ls' r r' ltac:(lia) Hr Hr' E) as [-> ->]. auto.
      * injection E as -> E. rewrite app_length in Hn. rewrite <- !app_assoc in E. cbn [app] in E.
        destruct (IH kids kids' (OClose :: flat_map expand ls ++ r) (OClose :: flat_map expand ls' ++ r') ltac:(lia)) as [-> E2]; simpl; auto. injection E2 as E2.
        destruct (IH ls ls' r r' ltac:(lia) Hr Hr' E2) as [-> ->]. auto.
      * injection E as -> -> E. rewrite app_length in Hn. rewrite <- !app_assoc in E. cbn [app] in E.
        destruct (IH kids kids' (OClose :: flat_map expand ls ++ r) (OClose :: flat_map expand ls' ++ r') ltac:(lia)) as [-> E2]; simpl; auto. injection E2 as E2.
        destruct (IH ls ls' r r' ltac:(lia) Hr Hr' E2) as [-> ->]. auto.
Qed.
Lemma written_one ls ls' ts : written ls ts -> written ls' ts -> ls = ls'.
Proof.
  intros H H'. set (n := levels ls + levels ls'). assert (E : macro_calls n ts = Some (flat_map expand ls)) by (apply all_exact; exists ls; split; auto; split; auto; lia).
  assert (E' : macro_calls n ts = Some (flat_map expand ls')) by (apply all_exact; exists ls'; split; auto; split; auto; lia). rewrite E in E'. injection E' as E'.
  apply (expand_inj _ ls ls' [] [] (le_n _)); simpl; auto. rewrite !app_nil_r. auto.
Qed.
Lemma levels_long (ls : list (lit T)) : length ls <= levels ls /\ 1 <= levels ls.
Proof. induction ls as [|l ls [IH1 IH2]]; [simpl; lia|]. cbn [levels length]. destruct ls; [simpl; lia|]. lia. Qed.
End Lit.
