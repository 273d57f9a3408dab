(** C73: the program benches/comparisons.rs. *)
From Coq Require Import Lia.
From Verif Require Import Base Pointer Index Tree Builder Hist Node Iter Print Spec SpecEq SpecProgram SpecBench Text ClientMath ClientBench
  Rep Refine TreeRep Enum WalkThms Nav Skip PropsTree PropsSafe PropsProgram ClientFacts.
Local Open Scope nat_scope.

(** ** The strings *)
Lemma cycled_turn (all : list str) : all <> [] -> forall n j, cycled all (skipn j all) n =
  map (fun k => nth (k mod length all) all []) (List.seq (if j <? length all then j else 0) n) \/ length all < j.
Proof.
  intros Ha. assert (La : 0 < length all) by (destruct all; [congruence|simpl; lia]).
  induction n as [|n IH]; intros j; [left; auto|]. destruct (Nat.ltb_spec (length all) j) as [L|L]; [auto|left].
  assert (G : forall i x, skipn i all = x :: skipn (S i) all -> i < length all -> x :: cycled all (skipn (S i) all) n =
     map (fun k => nth (k mod length all) all []) (List.seq i (S n))).
  { intros i x E Hi. cbn [List.seq map]. f_equal.
    - rewrite Nat.mod_small by auto. rewrite <- (firstn_skipn i all), E at 1. assert (Lf : length (firstn i all) = i) by (rewrite firstn_length; lia). rewrite app_nth2; rewrite Lf; [|lia]. rewrite Nat.sub_diag. auto.
    - destruct (IH (S i)) as [->|]; [|lia]. destruct (Nat.ltb_spec (S i) (length all)); auto.
      assert (Ei : S i = length all) by lia. rewrite <- Ei. clear -Ha. generalize (S i) as m. intros m.
      assert (X : forall q c, map (fun k => nth (k mod m) all []) (List.seq c q) = map (fun k => nth (k mod m) all []) (List.seq (m + c) q)).
      { induction q as [|q IHn]; intros c; cbn [List.seq map]; auto. apply f_equal2; [|rewrite (IHn (S c)), Nat.add_succ_r; auto].
        destruct m as [|m]; [auto|]. f_equal. rewrite (Nat.add_comm (S m) c). replace (c + S m) with (c + 1 * S m) by lia. rewrite Nat.mod_add; auto. }
      rewrite X, Nat.add_0_r. auto. }
  assert (S0 : forall i, i < length all -> exists x, skipn i all = x :: skipn (S i) all).
  { clear. induction all as [|y all IH]; intros [|i] H; simpl in *; try lia; eauto. apply IH. lia. }
  destruct (Nat.ltb_spec j (length all)) as [L'|L'].
  - destruct (S0 j L') as [x E]. rewrite E. cbn [cycled]. apply G; auto.
  - rewrite skipn_all2 by lia. destruct (S0 0 La) as [x E]. simpl in E. cbn [cycled]. destruct all as [|y all']; [congruence|]. injection E as <-. apply (G 0 y); auto.
Qed.

(** [cycle().take(n)] and [(0..n).zip(cycle())] give the strings in turn. *)
Theorem C73_cycle : forall (strings : list str) n, cycled strings strings n = in_turn strings n /\ length (in_turn strings n) = (match strings with [] => 0 | _ => n end).
Proof.
  intros ss n. destruct ss as [|s ss]; [split; [destruct n; auto|auto]|]. split; [|unfold in_turn; rewrite map_length, seq_length; auto].
  destruct (cycled_turn (s :: ss) ltac:(discriminate) n 0) as [E|E]; [exact E|]. simpl in E. lia.
Qed.
Print Assumptions C73_cycle.

(** ** The trees *)
Definition entries (ss : list str) : prog bsyntax :=
  fold_right (fun s k => PNode BEntry (PTok BString (str_len s) PDone) (PTok BWhitespace 1 k)) PDone ss.
Definition strings_prog (ss : list str) : prog bsyntax := toks (map (fun s => (BString, str_len s)) ss).
Lemma build_does F ss : forall (w : world bsyntax) c, build_loop F ss w = does F w (strings_prog ss) c Ok.
Proof.
  induction ss as [|s ss IH]; intros w c; [reflexivity|]. unfold strings_prog. cbn [map]. rewrite does_toks_cons. cbn [build_loop fst snd]. apply bind_ext. intros w1. apply IH.
Qed.
Lemma tree_does F ss : forall (w : world bsyntax) c, tree_loop F ss w = does F w (entries ss) c Ok.
Proof.
  induction ss as [|s ss IH]; intros w c; [reflexivity|].
  change (entries (s :: ss)) with (seq (PNode BEntry (PTok BString (str_len s) PDone) PDone) (seq (PTok BWhitespace 1 PDone) (entries ss))).
  rewrite does_seq, does_node. cbn [tree_loop]. apply bind_ext. intros w1. rewrite does_tok. apply bind_ext. intros w2. apply bind_ext. intros w3.
  rewrite does_seq, does_tok. apply bind_ext. intros w4. apply IH.
Qed.
Lemma scoped_entries m ss : scoped m (entries ss). Proof. induction ss; simpl; auto. Qed.
Lemma trees_entries ss : forall acc, program_trees acc (entries ss) = acc ++ flat_map (fun s => [GNode BEntry [GTok BString (str_len s)]; GTok BWhitespace 1]) ss.
Proof. induction ss as [|s ss IH]; intros acc; simpl; [rewrite app_nil_r; auto|]. rewrite IH, <- !app_assoc. auto. Qed.
Lemma wrapped_build F (q : prog bsyntax) (loop : world bsyntax -> result (world bsyntax)) : scoped false q -> (forall w c, loop w = does F w q c Ok) ->
  bind (call_checkpoint F world_new) (fun '(w, c) => bind (loop w) (fun w => bind (call F (OCloseAt c BRoot) w) (fun w => build (w_builder w)))) =
  build_try F (program_calls 0 0 (PMark (seq q (PWrap BRoot PDone)) PDone)).
Proof.
  intros Hq HL. transitivity (does F (@world_new bsyntax) (PMark (seq q (PWrap BRoot PDone)) PDone) 0 (fun w => build (w_builder w))).
  2:{ unfold does, build_try. simpl (length _). destruct (run_try _ _ _); auto. }
  rewrite does_mark. apply bind_ext. intros [w c]. rewrite does_seq, (HL w c). rewrite does_bind. apply does_ext. intros w1. rewrite does_wrap. auto.
Qed.
Lemma late_seq {T} (p q : prog T) : adds q = true -> late q = false -> late (seq p q) = late p && false /\ adds (seq p q) = true.
Proof.
  intros A L. induction p as [|d len k IHk|d b IHb k IHk|b IHb k IHk|d k IHk]; simpl; auto.
  - destruct IHk as [-> _]. rewrite !Bool.andb_false_r. auto.
  - destruct IHk as [-> ->]. rewrite !Bool.andb_false_r. auto.
  - destruct IHk as [-> ->]. rewrite !Bool.andb_false_r, Bool.orb_true_r. auto.
  - destruct IHk as [-> _]. rewrite !Bool.andb_false_r. auto.
Qed.
Lemma exact_program F (q : prog bsyntax) r g : vec_flavor F -> scoped false q -> r = build_try F (program_calls 0 0 (PMark (seq q (PWrap BRoot PDone)) PDone)) ->
  program_trees [] (PMark (seq q (PWrap BRoot PDone)) PDone) = [g] -> builds_exactly F r g.
Proof.
  intros HF Hq -> Eg. set (p := PMark (seq q (PWrap BRoot PDone)) PDone) in *.
  assert (Hp : scoped false p) by (simpl; split; auto; apply scoped_seq; split; [apply scoped_mono; auto|simpl; auto]).
  destruct (late_seq q (PWrap BRoot PDone) eq_refl eq_refl) as [L1 L2].
  assert (L : late p = false) by (unfold p; cbn [late adds]; rewrite L1, L2, Bool.andb_false_r; auto).
  destruct (C48_any bsyntax F p HF Hp) as [H1 H2]. rewrite Eg in H1, H2. rewrite L in H1.
  assert (Ez : sizes (measured F [g]) = size g).
  { unfold measured. destruct (fl_index F); rewrite ?silent_sizes; unfold sizes; simpl; lia. }
  rewrite Ez in H1, H2. unfold builds_exactly. cbv zeta. split.
  - rewrite H1. split; [intros [X|[X|[_ X]]]; [auto..|discriminate]|]. intros [X|X]; auto.
  - intros X. destruct (H2 X) as (t & l & A & B & C & D & E). exists t, (program_calls 0 0 p), l. auto.
Qed.

(** [syntree_build] builds the root with a token for each string, or ends with Overflow, and it is known when. *)
Theorem C73_build : forall F strings count, vec_flavor F -> builds_exactly F (syntree_build F strings count) (flat_tree (in_turn strings count)).
Proof.
  intros F ss n HF. unfold syntree_build. rewrite (proj1 (C73_cycle ss n)). set (xs := in_turn ss n).
  apply (exact_program F (strings_prog xs)); auto; [apply scoped_toks| |].
  - apply wrapped_build; [apply scoped_toks|]. intros w c. apply build_does.
  - cbn [program_trees]. rewrite trees_seq. unfold strings_prog. rewrite trees_toks. cbn [program_trees app]. unfold flat_tree. rewrite map_map. auto.
Qed.
Print Assumptions C73_build.

(** So does [syntree_tree], with the entries and blanks. *)
Theorem C73_tree : forall F n strings, vec_flavor F -> builds_exactly F (syntree_tree F n strings) (entry_tree (in_turn strings n)).
Proof.
  intros F n ss HF. unfold syntree_tree. rewrite (proj1 (C73_cycle ss n)). set (xs := in_turn ss n).
  apply (exact_program F (entries xs)); auto; [apply scoped_entries| |].
  - apply wrapped_build; [apply scoped_entries|]. intros w c. apply tree_does.
  - cbn [program_trees]. rewrite trees_seq, trees_entries. cbn [program_trees app]. auto.
Qed.
Print Assumptions C73_tree.

(** ** The counts *)
Lemma erase_kids {T} (l : list (rose T)) d sp ks : map erase l = [Sh d sp ks] -> exists x, l = [x] /\ map erase (r_kids x) = ks.
Proof. destruct l as [|[i k dx sx kids] [|y l]]; try discriminate. simpl. intros E. injection E as _ _ <-. exists (Nd i k dx sx kids). auto. Qed.
Lemma root_children F t (g : gtree bsyntax) d kids ops l : g = GNode d kids -> vec_flavor F -> builds F ops t -> document F ops l -> map erase l = lay_list 0 (measured F [g]) ->
  exists root x, tree_first t = Some root /\ map erase (r_kids x) = lay_list 0 (match fl_index F with IxEmpty => map silent kids | _ => kids end) /\ length (r_kids x) < length (t_nodes t) /\
    enumerates_nodes (total (children_next (t_nodes t))) (node_children root) (r_kids x).
Proof.
  intros -> HF Hb Hd E. assert (R : tree_rep t l) by (eapply built_rep; eauto).
  set (ks := match fl_index F with IxEmpty => map silent kids | _ => kids end).
  assert (Em : measured F [GNode d kids] = [GNode d ks]) by (unfold measured, ks; destruct (fl_index F); auto).
  rewrite Em in E. unfold lay_list in E at 1. rewrite lay_node in E.
  destruct (erase_kids _ _ _ _ E) as (x & El & Ek). subst l.
  assert (Hx : In x (preorder_list [x])) by (destruct x; unfold preorder_list; simpl; auto).
  pose proof (tr_first _ _ R) as Ef. cbn [hd_id] in Ef.
  assert (Er : exists n, tree_first t = Some n /\ tree_get t (r_id x) = Some n).
  { unfold tree_first. rewrite Ef. destruct (in_sibling_lists _ _ Hx) as (p & s1 & s2 & Hs). pose proof (node_links _ _ _ _ _ _ R Hs) as En.
    unfold tree_get, node_opt, node_at. rewrite En. eauto. }
  destruct Er as (n & Er & En). exists n, x. split; [auto|]. split; [auto|]. split.
  - pose proof (tr_length _ _ R) as Z. rewrite Z. destruct x as [i k dx sx kids']. cbn [r_kids].
    change (preorder_list [Nd i k dx sx kids']) with (Nd i k dx sx kids' :: preorder_list kids' ++ []). cbn [length]. rewrite app_nil_r.
    assert (Y : length kids' <= length (preorder_list kids')) by (clear; induction kids' as [|[? ? ? ? ?] r IH]; [auto|]; unfold preorder_list in *; cbn [flat_map]; rewrite app_length; simpl; lia).
    lia.
  - destruct (Nav.children_thm t [x] R (node_children n) (Some x) (r_kids x)) as (items & He & HFa); [apply TreeRep.kids_sibling_list; auto|eapply node_children_is; eauto|].
    exists items. split; auto. clear -HFa. induction HFa as [|a y items xs H Hs IH]; simpl; auto. rewrite IH. f_equal. apply H.
Qed.
Lemma count_enum {S T} (nxt : S -> result (S * option (node T))) s xs fuel : enumerates_nodes nxt s xs -> length xs < fuel -> count_of fuel nxt s = Ok (length xs).
Proof.
  intros (items & He & Hm) Hf. assert (L : length items = length xs) by (rewrite <- (map_length view items), Hm, map_length; auto).
  unfold count_of. destruct (iter_collect_enumerates _ items s fuel He) as (s' & -> & _); [lia|]. rewrite L. auto.
Qed.

(** The children of the root: two for each string; one of the two has children. *)
Theorem C73_counts : forall F n strings t, vec_flavor F -> syntree_tree F n strings = Ok t ->
  let m := length (in_turn strings n) in
  count_children t = Some (Ok (2 * m)) /\ count_nodes t = Some (Ok m).
Proof.
  intros F n ss t HF E m. destruct (C73_tree F n ss HF) as [_ H]. rewrite E in H. destruct H as (t' & ops & l & Et & Hb & Hd & El & _); [discriminate|]. injection Et as <-.
  unfold entry_tree in El. set (xs := in_turn ss n) in *. set (ks := flat_map _ xs) in El.
  destruct (root_children F t _ _ _ ops l eq_refl HF Hb Hd El) as (root & x & Er & Ek & Lk & He).
  assert (C : length (r_kids x) = 2 * m /\ length (filter has_kids (r_kids x)) = m).
  { assert (G : forall b c, map (fun y : rose bsyntax => match erase y with Sh _ _ k => length k end) (r_kids x) = b -> length b = 2 * m /\ length (filter (fun j => negb (j =? 0)) b) = c ->
       length (r_kids x) = 2 * m /\ length (filter has_kids (r_kids x)) = c).
    { intros b c <- [H1 H2]. rewrite map_length in H1. split; auto. rewrite <- H2. clear. induction (r_kids x) as [|[i k d sp kk] r IH]; simpl; auto.
      rewrite map_length. unfold has_kids at 1. cbn [r_kids]. destruct kk; simpl; auto. }
    assert (X : map (fun y : rose bsyntax => match erase y with Sh _ _ k => length k end) (r_kids x) = flat_map (fun _ => [1; 0]) xs).
    { transitivity (map (fun h : shape bsyntax => match h with Sh _ _ k => length k end) (map erase (r_kids x))); [rewrite map_map; auto|]. rewrite Ek. unfold ks. clear.
      generalize 0%N. destruct (fl_index F); induction xs as [|s xs IH]; intros c; simpl; auto; rewrite IH; auto. }
    apply (G _ m X). unfold m. fold xs. clear. induction xs as [|s xs IH]; simpl; auto. simpl in IH. lia. }
  destruct C as [C1 C2]. unfold count_children, count_nodes. rewrite Er.
  split; f_equal.
  - rewrite <- C1. apply count_enum; auto. unfold loop_fuel. lia.
  - rewrite <- C2. apply count_enum; [apply C26_skip_tokens; auto; unfold loop_fuel; lia|].
    assert (length (filter has_kids (r_kids x)) <= length (r_kids x)) by (clear; induction (r_kids x); simpl; auto; destruct (has_kids a); simpl; lia). unfold loop_fuel. lia.
Qed.
Print Assumptions C73_counts.

(** ** The random strings *)
Lemma len_app (a b : str) : str_len (a ++ b) = (str_len a + str_len b)%N.
Proof. unfold str_len. induction a; simpl; auto. rewrite IHa. lia. Qed.
Lemma len_utf8_range c : (1 <= len_utf8 c <= 4)%N.
Proof. unfold len_utf8. destruct (_ <? _)%N; [lia|]. destruct (_ <? _)%N; [lia|]. destruct (_ <? _)%N; lia. Qed.
Definition text_char (c : N) : Prop := is_whitespace c = false /\ char_from_u32 c = Some c.

Section Random.
Variable R : Type.
Variables (gen_usize next_u32 : R -> N * R).
Lemma fill_spec target top : (target + 3 <= top)%N -> forall fuel r s, (str_len s <= top)%N -> Forall text_char s ->
  match fill next_u32 fuel target r s with
  | Ran (_, s') => begins_with s' s /\ (target <= str_len s' <= top)%N /\ Forall text_char s'
  | Panic => False
  | Endless => True
  end.
Proof.
  intros Ht. induction fuel as [|fuel IH]; intros r s Hs Hc; simpl; destruct (N.ltb_spec (str_len s) target) as [L|L]; auto.
  - split; [exists []; rewrite app_nil_r; auto|]. auto.
  - destruct (next_u32 r) as [v r1]. set (s1 := match char_from_u32 v with Some _ => _ | None => _ end).
    assert (P : begins_with s1 s /\ (str_len s1 <= top)%N /\ Forall text_char s1).
    { assert (P0 : begins_with s s) by (exists []; rewrite app_nil_r; auto). subst s1. destruct (char_from_u32 v) as [c|] eqn:Ev; [|auto]. destruct (is_whitespace c) eqn:Ew; [auto|].
      split; [exists [c]; auto|]. split; [rewrite len_app; pose proof (len_utf8_range c); unfold str_len at 2; simpl; lia|].
      apply Forall_app. split; auto. constructor; auto. split; auto. unfold char_from_u32 in *. destruct (_ || _)%bool eqn:Eo; [|discriminate]. injection Ev as <-. rewrite Eo. auto. }
    destruct P as ((q & P1) & P2 & P3). specialize (IH r1 s1 P2 P3). destruct (fill next_u32 fuel target r1 s1) as [[r2 s2]| |]; auto.
    destruct IH as ((q2 & I1) & I2 & I3). split; auto. exists (q ++ q2). rewrite I1, P1, app_assoc. auto.
  - split; [exists []; rewrite app_nil_r; auto|]. auto.
Qed.
Lemma generate_spec min max fuel : (min < max)%N -> forall count r s, (str_len s <= max + 2)%N -> Forall text_char s ->
  match generate gen_usize next_u32 fuel min max count r s with
  | Ran l => length l = count /\ Forall (fun x => begins_with x s /\ (min <= str_len x <= max + 2)%N /\ Forall text_char x) l /\
             forall i x y, nth_error l i = Some x -> nth_error l (S i) = Some y -> begins_with y x
  | Panic => False
  | Endless => True
  end.
Proof.
  intros Hm. induction count as [|count IH]; intros r s Hs Hc; simpl.
  - split; auto. split; auto. intros [|i] x y; discriminate.
  - destruct (gen_usize r) as [v r1]. destruct (N.leb_spec max min); [lia|].
    assert (B : (v mod (max - min) < max - min)%N) by (apply N.mod_lt; lia).
  revert B. generalize (v mod (max - min))%N. intros z B. set (target := (z + min)%N).
    assert (E : ((min <=? target) && (target <? max))%N = true) by (apply andb_true_intro; split; [apply N.leb_le|apply N.ltb_lt]; subst target; lia).
    rewrite E. pose proof (fill_spec target (max + 2) ltac:(subst target; lia) fuel r1 s Hs Hc) as HF.
    destruct (fill next_u32 fuel target r1 s) as [[r2 s2]| |]; auto. destruct HF as ((q & F1) & F2 & F3).
    specialize (IH r2 s2 ltac:(lia) F3). destruct (generate gen_usize next_u32 fuel min max count r2 s2) as [l| |]; auto.
    destruct IH as (I1 & I2 & I3). split; [simpl; auto|]. split.
    + constructor. { split; [exists q; auto|]. split; [subst target; lia|auto]. }
      eapply Forall_impl; [|exact I2]. intros x ((p & X1) & X2). split; auto. exists (q ++ p). rewrite X1, F1, app_assoc. auto.
    + intros [|i] x y Hx Hy; [|apply (I3 i); auto]. cbn [nth_error] in Hx. change (nth_error l 0 = Some y) in Hy. injection Hx as <-. apply nth_error_In in Hy. rewrite Forall_forall in I2. apply (I2 y Hy).
Qed.
End Random.

(** Whatever the generator: with [min < max] the assertion holds; if the loops end, there are [count] strings, of [min] to [max + 2] bytes, without
    whitespace, and each begins with the one before it (the buffer is not cleared). *)
Theorem C73_random : forall R (gen_usize next_u32 : R -> N * R) fuel count min max r, (min < max)%N ->
  generate_random gen_usize next_u32 fuel count min max r <> Panic /\
  forall l, generate_random gen_usize next_u32 fuel count min max r = Ran l ->
    length l = count /\
    (forall s, In s l -> (min <= str_len s <= max + 2)%N /\ forall c, In c s -> is_whitespace c = false) /\
    forall i a b, nth_error l i = Some a -> nth_error l (S i) = Some b -> begins_with b a.
Proof.
  intros R gu nu fuel count min max r Hm. unfold generate_random. pose proof (generate_spec R gu nu min max fuel Hm count r [] ltac:(simpl; lia) ltac:(constructor)) as H.
  destruct (generate gu nu fuel min max count r []) as [l| |]; [|contradiction|]; (split; [discriminate|]); intros l' E; [|discriminate]. injection E as <-.
  destruct H as (H1 & H2 & H3). split; auto. split; auto. intros s Hs. rewrite Forall_forall in H2. destruct (H2 s Hs) as (_ & H4 & H5). split; auto.
  intros c Hc. rewrite Forall_forall in H5. apply (H5 c Hc).
Qed.
Print Assumptions C73_random.

(** Which strings they are, exactly. *)
Lemma from_u32_scalar v : match char_from_u32 v with Some c => c = v /\ scalar v | None => ~ scalar v end.
Proof.
  unfold char_from_u32, scalar. destruct (N.ltb_spec v 55296); cbn [orb]; [split; [auto|lia]|]. destruct (N.ltb_spec 57343 v); cbn [andb]; [|lia].
  destruct (N.leb_spec v 1114111); [split; [auto|lia]|lia].
Qed.
Lemma kept_fun vs a b : kept_of vs a -> kept_of vs b -> a = b.
Proof. intros H. revert b. induction H; intros b Hb; inversion Hb; subst; auto; try tauto. f_equal. auto. Qed.
Lemma fill_exact R (next_u32 : R -> N * R) target : forall fuel r s r' s', fill next_u32 fuel target r s = Ran (r', s') ->
  exists vs more, s' = s ++ more /\ drawn next_u32 r vs r' /\ kept_of vs more /\ (target <= str_len s')%N /\
    forall vs' x rest more', vs = vs' ++ x :: rest -> kept_of vs' more' -> (str_len (s ++ more') < target)%N.
Proof.
  induction fuel as [|fuel IH]; intros r s r' s' H; simpl in H; destruct (N.ltb_spec (str_len s) target) as [L|L]; try discriminate.
  - injection H as <- <-. exists [], []. rewrite app_nil_r. repeat split; auto; try constructor. intros [|? ?] ? ? ? E; discriminate.
  - destruct (next_u32 r) as [v r1] eqn:Ev.
    assert (K : exists k, match char_from_u32 v with Some c => if is_whitespace c then s else s ++ [c] | None => s end = s ++ k /\ forall vs more, kept_of vs more <-> kept_of (v :: vs) (k ++ more)).
    { pose proof (from_u32_scalar v) as Hv. destruct (char_from_u32 v) as [c|].
      - destruct Hv as [-> Hv]. destruct (is_whitespace v) eqn:Ew.
        + exists []. rewrite app_nil_r. split; auto. intros vs more. split; intros K; [apply ko_drop; [intros [_ ?]; congruence|exact K]|inversion K; subst; auto; congruence].
        + exists [v]. split; auto. intros vs more. split; intros K; [apply ko_keep; auto|inversion K; subst; auto; tauto].
      - exists []. rewrite app_nil_r. split; auto. intros vs more. split; intros K; [apply ko_drop; [tauto|exact K]|inversion K; subst; auto; tauto]. }
    destruct K as (k & Ek & Kk). rewrite Ek in H. destruct (IH _ _ _ _ H) as (vs & more & E1 & E2 & E3 & E4 & E5).
    exists (v :: vs), (k ++ more). rewrite app_assoc. split; [exact E1|]. split; [econstructor; eauto|]. split; [exact (proj1 (Kk _ _) E3)|]. split; [exact E4|].
    intros [|v' vs'] x rest more' E Hk.
    + inversion Hk; subst. rewrite app_nil_r. auto.
    + injection E as <- ->.
      assert (exists m, more' = k ++ m /\ kept_of vs' m) as (m & -> & Hm).
      { assert (Z : exists z, kept_of vs' z) by (inversion Hk; eauto). destruct Z as [z Hz]. exists z. split; auto. eapply kept_fun; [exact Hk|]. exact (proj1 (Kk _ _) Hz). }
      rewrite app_assoc. eapply E5; [reflexivity|auto].
  - injection H as <- <-. exists [], []. rewrite app_nil_r. repeat split; auto; try constructor. intros [|? ?] ? ? ? E; discriminate.
Qed.
Theorem C73_strings : forall R (gen_usize next_u32 : R -> N * R) fuel count min max r l, (min < max)%N ->
  generate_random gen_usize next_u32 fuel count min max r = Ran l -> strings_of gen_usize next_u32 min max count r [] l.
Proof.
  intros R gu nu fuel count min max r l Hm. unfold generate_random. generalize (@nil N) as s. revert r l.
  induction count as [|count IH]; intros r l s H; simpl in H; [injection H as <-; constructor|].
  destruct (gu r) as [v r1] eqn:Eg. destruct (N.leb_spec max min); [lia|].
  destruct ((min <=? v mod (max - min) + min) && (v mod (max - min) + min <? max))%N; [|discriminate].
  destruct (fill nu fuel (v mod (max - min) + min) r1 s) as [[r2 s2]| |] eqn:Ef; try discriminate.
  destruct (generate gu nu fuel min max count r2 s2) as [l'| |] eqn:En; try discriminate. injection H as <-.
  destruct (fill_exact _ _ _ _ _ _ _ _ Ef) as (vs & more & -> & H1 & H2 & H3 & H4). rewrite N.add_comm in H3, H4.
  eapply so_cons; eauto.
Qed.
Print Assumptions C73_strings.

(** A generator whose every number is a character that can be used lets them end. *)
Theorem C73_random_ends : forall R (gen_usize next_u32 : R -> N * R) count min max r fuel, (min < max)%N -> N.to_nat max <= fuel ->
  (forall r, exists c, char_from_u32 (fst (next_u32 r)) = Some c /\ is_whitespace c = false) ->
  exists l, generate_random gen_usize next_u32 fuel count min max r = Ran l.
Proof.
  intros R gu nu count min max r fuel Hm Hf Hu.
  assert (HF : forall target fuel r s, N.to_nat (target - str_len s) <= fuel -> exists r' s', fill nu fuel target r s = Ran (r', s')).
  { intros target. induction fuel0 as [|f IH]; intros r0 s Hs; simpl; destruct (N.ltb_spec (str_len s) target) as [L|L]; eauto; [lia|].
    destruct (Hu r0) as (c & E1 & E2). destruct (nu r0) as [v r1]. simpl in E1. rewrite E1, E2. apply IH. rewrite len_app. pose proof (len_utf8_range c). unfold str_len at 2. simpl. lia. }
  unfold generate_random. generalize (@nil N) as s. revert r. induction count as [|count IH]; intros r s; simpl; eauto.
  destruct (gu r) as [v r1]. destruct (N.leb_spec max min); [lia|].
  assert (B : (v mod (max - min) < max - min)%N) by (apply N.mod_lt; lia).
  revert B. generalize (v mod (max - min))%N. intros z B. set (target := (z + min)%N).
  assert (E : ((min <=? target) && (target <? max))%N = true) by (apply andb_true_intro; split; [apply N.leb_le|apply N.ltb_lt]; subst target; lia).
  rewrite E. destruct (HF target fuel r1 s) as (r2 & s2 & ->); [subst target; lia|]. destruct (IH r2 s2) as [l ->]. eauto.
Qed.
Print Assumptions C73_random_ends.

(** ** The benchmarks *)
Lemma turn_in ss n (s : str) : In s (in_turn ss n) -> In s ss.
Proof.
  unfold in_turn. destruct ss as [|a ss]; [auto|]. intros H. apply in_map_iff in H as (k & <- & _). apply nth_In. apply Nat.mod_upper_bound. discriminate.
Qed.
Lemma flat_room (ss : list str) top : (forall s, In s ss -> (str_len s <= top)%N) -> size (flat_tree ss) = S (length ss) /\ (width (flat_tree ss) <= top * N.of_nat (length ss))%N.
Proof.
  intros H. unfold flat_tree. rewrite size_node, width_node. unfold sizes, widths. induction ss as [|s ss IH]; cbn [map fold_right length]; [split; [auto|lia]|].
  destruct IH as [I1 I2]; [intros x Hx; apply H; simpl; auto|]. specialize (H s ltac:(simpl; auto)). split; [simpl; injection I1 as ->; auto|]. cbn [width]. lia.
Qed.
Lemma entry_room (ss : list str) top : (forall s, In s ss -> (str_len s <= top)%N) -> size (entry_tree ss) = S (3 * length ss) /\ (width (entry_tree ss) <= (top + 1) * N.of_nat (length ss))%N.
Proof.
  intros H. unfold entry_tree. rewrite size_node, width_node. unfold sizes, widths. induction ss as [|s ss IH]; [split; [auto|simpl; lia]|].
  destruct IH as [I1 I2]; [intros x Hx; apply H; simpl; auto|]. specialize (H s ltac:(simpl; auto)). cbn [flat_map app fold_right length width size]. injection I1 as I1. rewrite I1. split; [lia|]. rewrite Nat2N.inj_succ, N.mul_succ_r. lia.
Qed.
Lemma measured_width {T} F (g : gtree T) : (widths (measured F [g]) <= width g)%N /\ (fl_index F = IxEmpty -> widths (measured F [g]) = 0%N).
Proof.
  assert (E : widths [g] = width g) by (unfold widths; simpl; lia).
  unfold measured. destruct (fl_index F) eqn:EI; rewrite ?silent_widths, ?E; (split; [lia|]); congruence.
Qed.

(** With the strings of the benchmark, from any generator, no [expect] or [unwrap] in it fails, and it counts what it means to: in every flavor and size of
    the program. *)
Theorem C73_benches : forall R (gen_usize next_u32 : R -> N * R) fuel r strings m n,
  generate_random gen_usize next_u32 fuel 100 5 20 r = Ran strings -> (m = usize_max_32 \/ m = usize_max_64) -> In n bench_sizes ->
  (forall F, In F [bench_default m; bench_usize m; bench_empty m] -> exists t, syntree_build F strings n = Ok t /\ tree_len t = S n) /\
  (forall F, In F [bench_default m; bench_u16 m; bench_usize m] -> exists t, syntree_tree F n strings = Ok t /\ tree_len t = S (3 * n) /\
     count_children t = Some (Ok (2 * n)) /\ count_nodes t = Some (Ok n)).
Proof.
  intros R gu nu fuel r ss m n Hg Hm Hn. destruct (C73_random R gu nu fuel 100 5 20 r ltac:(lia)) as [_ H]. destruct (H ss Hg) as (L & HS & _). clear H.
  assert (Hn' : n <= N.to_nat 16384) by (destruct Hn as [<-|[<-|[<-|[<-|[<-|[]]]]]]; lia).
  assert (Ln : length (in_turn ss n) = n) by (rewrite (proj2 (C73_cycle ss n)); destruct ss; [discriminate|auto]).
  assert (HT : forall s, In s (in_turn ss n) -> (str_len s <= 22)%N) by (intros s Hs; apply HS; eapply turn_in; eauto).
  assert (Go : forall T F (r : result (tree T)) g, builds_exactly F r g -> (N.of_nat (size g) <= 65535)%N -> (width g <= 4294967295)%N ->
     (65535 <= int_max F (fl_width F))%N -> (fl_index F = IxEmpty \/ 4294967295 <= ix_max F)%N -> exists t, r = Ok t /\ tree_len t = size g).
  { intros T F r0 g [B1 B2] G1 G2 G3 G4. destruct (measured_width F g) as [W1 W2]. destruct B2 as (t & ops & l & Et & _ & _ & _ & El); [|eauto].
    intros X. apply B1 in X as [X|X]; [lia|]. destruct G4 as [G4|G4]; [rewrite (W2 G4) in X; lia|lia]. }
  split; intros F HF.
  - destruct (flat_room (in_turn ss n) 22 HT) as [R1 R2]. rewrite Ln in R1, R2. rewrite <- R1.
    apply (Go _ F _ _ (C73_build F ss n ltac:(destruct HF as [<-|[<-|[<-|[]]]]; split; simpl; auto))); [lia|lia|..];
      destruct Hm as [-> | ->]; destruct HF as [<-|[<-|[<-|[]]]]; cbv [bench_default bench_usize bench_empty int_max fl_width fl_usize_max ix_max fl_index usize_max_32 usize_max_64];
      auto; try lia; try (right; lia).
  - destruct (entry_room (in_turn ss n) 22 HT) as [R1 R2]. rewrite Ln in R1, R2. rewrite <- R1.
    assert (VF : vec_flavor F) by (destruct HF as [<-|[<-|[<-|[]]]]; split; simpl; auto).
    destruct (Go _ F _ _ (C73_tree F n ss VF)) as (t & Et & El); [lia|lia|..];
      [destruct Hm as [-> | ->]; destruct HF as [<-|[<-|[<-|[]]]]; cbv [bench_default bench_u16 bench_usize int_max fl_width fl_usize_max ix_max fl_index usize_max_32 usize_max_64];
      auto; try lia; try (right; lia)..|].
    exists t. split; auto. split; auto. destruct (C73_counts F n ss t VF Et) as [C1 C2]. rewrite Ln in C1, C2. auto.
Qed.
Print Assumptions C73_benches.

(** The hypotheses are met: a generator; trees; and the limits of a flavor met and missed by one. *)
Definition counter_gen (r : N) : N * N := (r, r + 1)%N.
Definition u8_flavor : flavor := Flavor usize_max_64 IxU32 U8 SVec SVec.
Example C73_inhabited : vec_flavor u8_flavor /\
  (exists l, generate_random counter_gen counter_gen 200 100 5 20 33%N = Ran l /\ hd [] l <> [] /\ (str_len (hd [] l) < str_len (last l []))%N) /\
  in_turn [[97]; [98; 99]; [100]]%N 5 = [[97]; [98; 99]; [100]; [97]; [98; 99]]%N /\
  (exists t, syntree_tree u8_flavor 84 [[97]; [98; 99]]%N = Ok t /\ tree_len t = 253 /\ count_children t = Some (Ok 168) /\ count_nodes t = Some (Ok 84)) /\
  syntree_tree u8_flavor 85 [[97]; [98; 99]]%N = Err Overflow /\
  (exists t, syntree_build u8_flavor [[97]; [98; 99]]%N 254 = Ok t) /\ syntree_build u8_flavor [[97]; [98; 99]]%N 255 = Err Overflow /\
  (exists t, syntree_build u8_flavor [] 1000 = Ok t /\ tree_len t = 1).
Proof.
  split; [split; simpl; auto|].
  split; [eexists; split; [vm_compute; reflexivity|]; split; [discriminate|vm_compute; reflexivity]|].
  split; [vm_compute; reflexivity|].
  split; [eexists; split; [vm_compute; reflexivity|]; split; [vm_compute; reflexivity|]; split; vm_compute; reflexivity|].
  split; [vm_compute; reflexivity|]. split; [eexists; vm_compute; reflexivity|]. split; [vm_compute; reflexivity|].
  eexists. split; vm_compute; reflexivity.
Qed.
