(** C74: the alternate [Debug] text of trees and nodes. *)
From Coq Require Import Strings.String Lia ZArith List.
Import ListNotations.
From Verif Require Import Base Pointer Index Tree Builder Hist Node Iter Print Render Pretty Spec SpecEq SpecText SpecPretty
  Rep Refine TreeRep Enum WalkThms Demo PropsTree PropsFused PropsMacro PropsProgram PropsWith PropsDebug PropsText.

(** ** The adapter, byte by byte *)
Fixpoint padtext (flag : bool) (s : bytes) : bytes :=
  match s with [] => [] | c :: s => (if flag then repeat 32%N 4 else []) ++ c :: padtext (c =? 10)%N s end.
Fixpoint flag_after (flag : bool) (s : bytes) : bool := match s with [] => flag | c :: s => flag_after (c =? 10)%N s end.
Lemma padtext_app flag s s' : padtext flag (s ++ s') = padtext flag s ++ padtext (flag_after flag s) s'.
Proof. revert flag. induction s as [|c s IH]; intros flag; simpl; auto. rewrite IH, <- app_assoc. auto. Qed.
Lemma flag_after_app flag s s' : flag_after flag (s ++ s') = flag_after (flag_after flag s) s'.
Proof. revert flag. induction s; intros; simpl; auto. Qed.
Lemma ends_flag s flag : s <> [] -> ends_with_newline s = flag_after flag s.
Proof. revert flag. induction s as [|c [|d s] IH]; intros flag H; [congruence|auto|]. change (ends_with_newline (c :: d :: s)) with (ends_with_newline (d :: s)). rewrite (IH (c =? 10)%N); [auto|discriminate]. Qed.
Lemma padtext_line cur flag : cur <> [] -> ~ In 10%N cur -> forall s, padtext flag (cur ++ s) = (if flag then repeat 32%N 4 else []) ++ cur ++ padtext false s.
Proof.
  intros H Hn s. destruct cur as [|c cur]; [congruence|]. cbn [app padtext]. do 2 f_equal.
  assert (E : (c =? 10)%N = false) by (apply N.eqb_neq; intros ->; apply Hn; simpl; auto). rewrite E.
  assert (Hn' : ~ In 10%N cur) by (intros X; apply Hn; simpl; auto). clear - Hn'.
  induction cur as [|d cur IH]; cbn [app padtext]; auto. f_equal.
  assert (E : (d =? 10)%N = false) by (apply N.eqb_neq; intros ->; apply Hn'; simpl; auto). rewrite E. apply IH. intros X. apply Hn'. simpl; auto.
Qed.
Lemma flag_line cur flag : cur <> [] -> ~ In 10%N cur -> flag_after flag cur = false.
Proof.
  intros H Hn. destruct cur as [|c cur]; [congruence|]. simpl. clear H. revert Hn. revert c. induction cur as [|d cur IH]; intros c Hn; simpl.
  - apply N.eqb_neq; intros ->; apply Hn; simpl; auto.
  - apply IH. intros X. apply Hn. simpl in *; tauto.
Qed.
Lemma removelast_in (x : N) (l : list N) : In x (removelast l) -> In x l.
Proof. induction l as [|a l IH]; auto. destruct l as [|b l]; [simpl; tauto|]. intros [X|X]; simpl; auto. right. apply IH. auto. Qed.
Lemma pad_lines_text : forall (s cur : list N) flag, ~ In 10%N cur ->
  concat (fst (pad_lines flag (lines_of cur s))) = padtext flag (cur ++ s) /\ snd (pad_lines flag (lines_of cur s)) = flag_after flag (cur ++ s).
Proof.
  assert (L : forall l : list N, ~ In 10%N (removelast l) -> l <> [] -> forall flag : bool, (if flag then repeat 32%N 4 else []) ++ l = padtext flag l).
  { intros l Hl Hne flag. destruct (exists_last Hne) as (b & c & ->). rewrite removelast_last in Hl. destruct b as [|x b]; [simpl; auto|].
    rewrite padtext_line by (auto; discriminate). simpl. auto. }
  induction s as [|c s IH]; intros cur flag Hc.
  - rewrite app_nil_r. destruct cur as [|x cur]; [split; auto|]. cbn [lines_of pad_lines fst snd concat]. set (l := x :: cur) in *.
    assert (Nl : l <> []) by discriminate. split.
    + assert (E : concat ((if flag then [lit_bytes "    "] else []) ++ [l]) = (if flag then repeat 32%N 4 else []) ++ l) by (destruct flag; simpl; rewrite ?app_nil_r; auto).
      rewrite E. apply L; auto. intros X. apply Hc. apply removelast_in; auto.
    + cbn [snd]. apply ends_flag; auto.
  - cbn [lines_of]. destruct (N.eqb_spec c 10) as [->|Hne].
    + cbn [pad_lines]. destruct (IH [] (ends_with_newline (cur ++ [10%N])) ltac:(simpl; auto)) as [I1 I2]. cbn [app] in I1, I2.
      destruct (pad_lines (ends_with_newline (cur ++ [10%N])) (lines_of [] s)) as [ps e]. cbn [fst snd] in *.
      assert (E : ends_with_newline (cur ++ [10%N]) = true) by (rewrite (ends_flag _ flag) by (destruct cur; discriminate); rewrite flag_after_app; auto).
      rewrite E in I1, I2. split.
      * assert (G : concat ((if flag then [lit_bytes "    "] else []) ++ (cur ++ [10%N]) :: ps) = ((if flag then repeat 32%N 4 else []) ++ (cur ++ [10%N])) ++ concat ps) by (destruct flag; simpl; rewrite ?app_nil_r; auto).
        rewrite G, I1. rewrite (L (cur ++ [10%N])); [|rewrite removelast_last; auto|destruct cur; discriminate].
        change (10%N :: s) with ([10%N] ++ s). rewrite app_assoc, (padtext_app flag (cur ++ [10%N]) s), flag_after_app. auto.
      * rewrite I2. change (10%N :: s) with ([10%N] ++ s). rewrite app_assoc, (flag_after_app flag (cur ++ [10%N]) s), flag_after_app. auto.
    + replace (cur ++ c :: s) with ((cur ++ [c]) ++ s) by (rewrite <- app_assoc; auto). apply IH. intros X. apply in_app_iff in X as [X|[X|[]]]; auto.
Qed.
Lemma pad_text : forall ps flag, concat (pad flag ps) = padtext flag (concat ps).
Proof.
  induction ps as [|p ps IH]; intros flag; simpl; auto. unfold pad_write. destruct (pad_lines_text p [] flag ltac:(simpl; auto)) as [H1 H2].
  destruct (pad_lines flag (lines_of [] p)) as [out e]. cbn [fst snd app] in *. rewrite concat_app, H1, IH, padtext_app, H2. auto.
Qed.

(** ** Hanging text *)
Lemma hang_app n a b : hang n (a ++ b) = hang n a ++ hang n b.
Proof. apply flat_map_app. Qed.
Lemma hang_plain n s : ~ In 10%N s -> hang n s = s.
Proof.
  induction s as [|c s IH]; intros H; auto. cbn [hang flat_map]. destruct (N.eqb_spec c 10) as [->|_]; [exfalso; apply H; simpl; auto|]. simpl. f_equal. apply IH. intros X. apply H. simpl; auto.
Qed.
Lemma hang_spaces n m : hang n (repeat 32%N m) = repeat 32%N m.
Proof. apply hang_plain. intros X. apply repeat_spec in X. discriminate. Qed.
Lemma hang_hang m n s : hang m (hang n s) = hang (n + m) s.
Proof.
  induction s as [|c s IH]; auto. change (hang n (c :: s)) with ((if (c =? 10)%N then 10%N :: repeat 32%N n else [c]) ++ hang n s). rewrite hang_app, IH.
  change (hang (n + m) (c :: s)) with ((if (c =? 10)%N then 10%N :: repeat 32%N (n + m) else [c]) ++ hang (n + m) s). f_equal.
  destruct (N.eqb_spec c 10) as [->|Hc].
  - change (hang m (10%N :: repeat 32%N n)) with ((10%N :: repeat 32%N m) ++ hang m (repeat 32%N n)). rewrite hang_spaces, repeat_app. simpl. f_equal. rewrite <- !repeat_app. f_equal. lia.
  - apply hang_plain. intros [X|[]]. congruence.
Qed.
Lemma padtext_hang s : padtext false (s ++ [10%N]) = hang 4 s ++ [10%N].
Proof.
  assert (G : forall s, padtext true (s ++ [10%N]) = repeat 32%N 4 ++ padtext false (s ++ [10%N])) by (intros [|? ?]; reflexivity).
  induction s as [|c s IH]; auto. cbn [app padtext]. destruct (N.eqb_spec c 10) as [->|Hc].
  - rewrite G, IH. reflexivity.
  - rewrite IH. assert (E : (c =? 10)%N = false) by (apply N.eqb_neq; auto). cbn [hang flat_map]. rewrite E. reflexivity.
Qed.
Lemma padded_text ps s : concat ps = s ++ [10%N] -> concat (padded ps) = repeat 32%N 4 ++ hang 4 s ++ [10%N].
Proof. intros E. unfold padded. rewrite pad_text, E, <- padtext_hang. destruct s; reflexivity. Qed.
Lemma padded_field v : concat (padded (v ++ [lit_bytes "," ++ newline])) = repeat 32%N 4 ++ hang 4 (concat v) ++ [44%N; 10%N].
Proof.
  rewrite (padded_text _ (concat v ++ [44%N])); [rewrite hang_app; change (hang 4 [44%N]) with [44%N]; rewrite <- !app_assoc; auto|].
  rewrite concat_app. simpl. rewrite <- app_assoc. auto.
Qed.
Lemma padded_named name v : ~ In 10%N name -> concat (padded (name :: lit_bytes ": " :: v ++ [lit_bytes "," ++ newline])) = repeat 32%N 4 ++ name ++ lit_bytes ": " ++ hang 4 (concat v) ++ [44%N; 10%N].
Proof.
  intros Hn. rewrite (padded_text _ (name ++ lit_bytes ": " ++ concat v ++ [44%N])).
  - rewrite !hang_app. rewrite (hang_plain 4 name) by auto. change (hang 4 [44%N]) with [44%N]. change (hang 4 (lit_bytes ": ")) with (lit_bytes ": "). rewrite <- !app_assoc. auto.
  - cbn [concat]. rewrite concat_app. simpl. rewrite <- !app_assoc. simpl. rewrite <- app_assoc. auto.
Qed.

(** ** The pieces *)
Lemma index_line F i : index_debug F i = index_text F i /\ ~ In 10%N (index_text F i).
Proof.
  split; auto. unfold index_text. assert (D : ~ In 10%N (decimal i)) by (intros X; pose proof (decimal_digits i) as G; rewrite Forall_forall in G; specialize (G _ X); lia).
  destruct (fl_index F); auto. simpl. intuition discriminate.
Qed.
Lemma decimal_line i : ~ In 10%N (decimal i).
Proof. intros X; pose proof (decimal_digits i) as G; rewrite Forall_forall in G; specialize (G _ X); lia. Qed.
Lemma span_text F sp : concat (span_pretty F sp) = lit_bytes "(" ++ [10%N] ++ repeat 32%N 4 ++ index_text F (s_start sp) ++ [44%N; 10%N] ++ repeat 32%N 4 ++ index_text F (s_end sp) ++ [44%N; 10%N] ++ lit_bytes ")".
Proof.
  unfold span_pretty, tuple_pretty. cbn [map concat app]. rewrite app_nil_r, !concat_app. change [index_debug F (s_start sp); lit_bytes "," ++ newline] with ([index_debug F (s_start sp)] ++ [lit_bytes "," ++ newline]).
  change [index_debug F (s_end sp); lit_bytes "," ++ newline] with ([index_debug F (s_end sp)] ++ [lit_bytes "," ++ newline]). rewrite !padded_field. cbn [concat]. rewrite !app_nil_r.
  destruct (index_line F (s_start sp)) as [-> H1]. destruct (index_line F (s_end sp)) as [-> H2]. rewrite !hang_plain by auto.
  cbn [lit_bytes String.list_ascii_of_string map app newline]. rewrite <- !app_assoc. reflexivity.
Qed.
Lemma node_text {T} F (debug : T -> list bytes) d sp : concat (node_pretty F debug (d, sp)) = node_lines F (fun v => concat (debug v)) 0 d sp.
Proof.
  unfold node_pretty, struct_pretty. cbn [map concat fst snd]. rewrite !concat_app. rewrite !padded_named by (simpl; intuition discriminate).
  cbn [concat]. rewrite !app_nil_r, span_text, !hang_app, !hang_spaces. destruct (index_line F (s_start sp)) as [_ H1]. destruct (index_line F (s_end sp)) as [_ H2].
  rewrite !(hang_plain 4 (index_text _ _)) by auto. unfold node_lines, indented. rewrite <- !app_assoc. reflexivity.
Qed.
Lemma hang_newline n : hang n [10%N] = 10%N :: repeat 32%N n.
Proof. unfold hang. cbn [flat_map N.eqb Pos.eqb]. apply app_nil_r. Qed.
Lemma hang_indented n m s : hang (4 * n) (indented m s) = repeat 32%N (4 * m) ++ hang (4 * n) s ++ 10%N :: repeat 32%N (4 * n).
Proof. unfold indented. rewrite !hang_app, hang_spaces, hang_newline. auto. Qed.
Lemma hang_node {T} F (text : T -> bytes) n m d sp : hang (4 * n) (node_lines F text m d sp) = node_lines F text (m + n) d sp.
Proof.
  unfold node_lines. rewrite !hang_app, !hang_indented, !hang_spaces, !hang_app, hang_hang.
  destruct (index_line F (s_start sp)) as [_ H1]. destruct (index_line F (s_end sp)) as [_ H2]. rewrite !(hang_plain _ (index_text _ _)) by auto.
  replace (4 * (1 + m) + 4 * n) with (4 * (1 + (m + n))) by lia. unfold indented.
  assert (S : forall k, repeat 32%N (4 * (k + (m + n))) = repeat 32%N (4 * n) ++ repeat 32%N (4 * (k + m))) by (intros k; rewrite <- repeat_app; f_equal; lia).
  rewrite !S. replace (4 * (m + n)) with (4 * n + 4 * m) by lia. rewrite repeat_app.
  rewrite hang_newline.
  change (hang (4 * n) (lit_bytes "Node {")) with (lit_bytes "Node {"). change (hang (4 * n) (lit_bytes "data: ")) with (lit_bytes "data: "). change (hang (4 * n) (lit_bytes "span: (")) with (lit_bytes "span: (").
  change (hang (4 * n) (lit_bytes ",")) with (lit_bytes ","). change (hang (4 * n) (lit_bytes "),")) with (lit_bytes "),"). change (hang (4 * n) (lit_bytes "}")) with (lit_bytes "}").
  rewrite <- !app_assoc. cbn [app]. rewrite <- ?app_assoc. cbn [app]. rewrite <- ?app_assoc. reflexivity.
Qed.

Lemma entry_lines_of {T} F (debug : T -> list bytes) k (x : rose T) : (0 <= k)%Z ->
  repeat 32%N 8 ++ hang 8 (concat (tuple_pretty [] [[signed k]; node_pretty F debug (r_data x, r_span x)])) ++ [44%N; 10%N] = entry_lines F (fun v => concat (debug v)) (k, x).
Proof.
  intros Hk. rewrite (signed_pos _ Hk).
  destruct x as [i kd d sp kids]. cbn [r_data r_span]. unfold tuple_pretty. cbn [map concat]. rewrite !concat_app. 
  change [decimal (Z.to_N k)] with ([] ++ [decimal (Z.to_N k)]). cbn [concat]. rewrite !padded_field. cbn [app concat]. rewrite !app_nil_r, !hang_app, !hang_hang.
  rewrite node_text. change (4 + 8) with (4 * 3). rewrite hang_node. rewrite !(hang_plain _ (decimal _)) by apply decimal_line. unfold entry_lines, indented. cbn [Nat.add Nat.mul]. rewrite <- !app_assoc. reflexivity.
Qed.

Lemma list_text vs : concat (list_pretty vs) = match vs with [] => lit_bytes "[]" | _ => lit_bytes "[" ++ [10%N] ++ concat (map (fun v => repeat 32%N 4 ++ hang 4 (concat v) ++ [44%N; 10%N]) vs) ++ lit_bytes "]" end.
Proof.
  destruct vs as [|v vs]; auto. unfold list_pretty. generalize (v :: vs). clear v vs. intros vs. cbn [concat]. f_equal. rewrite concat_app. cbn [concat]. rewrite <- app_assoc. f_equal. rewrite app_nil_r. f_equal.
  induction vs as [|v vs IH]; auto. cbn [map concat]. rewrite concat_app, IH, padded_field. auto.
Qed.

Lemma pretty_entries T F (t : tree T) (items : list (Z * rose T)) (debug : T -> list bytes) : debug_tree F t = Ok (map (fun i => (fst i, (r_data (snd i), r_span (snd i)))) items) ->
  Forall (fun y => (0 <= fst y)%Z) items -> exists ps, tree_pretty F debug t = Ok ps /\ concat ps = entries_lines F (fun v => concat (debug v)) items.
Proof.
  intros H P. unfold tree_pretty. rewrite H. clear H. eexists. split; [reflexivity|]. rewrite map_map. cbn [fst snd].
  set (g := fun x : Z * rose T => tuple_pretty [] [[signed (fst x)]; node_pretty F debug (r_data (snd x), r_span (snd x))]).
  unfold tuple_pretty. cbn [map concat]. rewrite app_nil_r, concat_app, padded_field. unfold entries_lines. rewrite list_text.
  destruct items as [|x0 xs0]; [reflexivity|]. set (xs := x0 :: xs0) in *.
  replace (match map g xs with [] => lit_bytes "[]" | _ => lit_bytes "[" ++ [10%N] ++ concat (map (fun v => repeat 32%N 4 ++ hang 4 (concat v) ++ [44%N; 10%N]) (map g xs)) ++ lit_bytes "]" end)
    with (lit_bytes "[" ++ [10%N] ++ concat (map (fun v => repeat 32%N 4 ++ hang 4 (concat v) ++ [44%N; 10%N]) (map g xs)) ++ lit_bytes "]") by reflexivity.
  clearbody xs. clear x0 xs0. rewrite !hang_app, hang_newline.
  assert (E : hang 4 (concat (map (fun v => repeat 32%N 4 ++ hang 4 (concat v) ++ [44%N; 10%N]) (map g xs))) = concat (map (fun x => repeat 32%N 4 ++ hang 8 (concat (g x)) ++ [44%N; 10%N] ++ repeat 32%N 4) xs)).
  { clear P. induction xs as [|y xs IH]; auto. cbn [map concat]. rewrite hang_app, IH. f_equal. rewrite !hang_app, hang_spaces, hang_hang. reflexivity. }
  rewrite E. clear E.
  assert (G : forall r, repeat 32%N 4 ++ concat (map (fun x => repeat 32%N 4 ++ hang 8 (concat (g x)) ++ [44%N; 10%N] ++ repeat 32%N 4) xs) ++ r = concat (map (entry_lines F (fun v => concat (debug v))) xs) ++ repeat 32%N 4 ++ r).
  { induction P as [|[k y] xs Hk P IH]; intros r; auto. cbn [map concat]. rewrite <- entry_lines_of by (exact Hk). change (tuple_pretty [] [[signed k]; node_pretty F debug (r_data y, r_span y)]) with (g (k, y)).
    change (repeat 32%N 8) with (repeat 32%N 4 ++ repeat 32%N 4). rewrite <- !app_assoc. do 4 f_equal. apply IH. }
  specialize (G (lit_bytes "]" ++ [44%N; 10%N] ++ lit_bytes ")")).
  transitivity (lit_bytes "Tree(" ++ [10%N] ++ repeat 32%N 4 ++ lit_bytes "[" ++ [10%N] ++
    repeat 32%N 4 ++ concat (map (fun x => repeat 32%N 4 ++ hang 8 (concat (g x)) ++ [44%N; 10%N] ++ repeat 32%N 4) xs) ++ lit_bytes "]" ++ [44%N; 10%N] ++ lit_bytes ")").
  - rewrite <- !app_assoc. reflexivity.
  - rewrite G. unfold indented. rewrite <- !app_assoc. reflexivity.
Qed.
(** [{:#?}] of a tree, to the byte, whatever pieces the values' own [Debug] writes. *)
Theorem C74_tree : forall T F (t : tree T) l (debug : T -> list bytes), shows F t l ->
  exists ps, tree_pretty F debug t = Ok ps /\ concat ps = pretty_text F (fun v => concat (debug v)) l.
Proof. intros T F t l debug H. apply pretty_entries; [apply debug_tree_shows; auto|apply depths_pos; lia]. Qed.
Print Assumptions C74_tree.

(** The same of one node. *)
Theorem C74_node : forall T F (debug : T -> list bytes) (n : node T),
  concat (node_pretty F debug (debug_node n)) = node_lines F (fun v => concat (debug v)) 0 (node_value n) (node_span n).
Proof. intros. apply node_text. Qed.
Print Assumptions C74_node.

(** ** Reading it *)
Lemma hang_cut n a b r : (exists x, hang n a ++ r = hang n b ++ x) -> length (hang n a) <= length (hang n b) -> exists c, b = a ++ c /\ True.
Proof.
  intros [x E] L. revert b E L. induction a as [|c a IH]; intros b E L; [exists b; auto|].
  destruct b as [|d b].
  - change (hang n (c :: a)) with ((if (c =? 10)%N then 10%N :: repeat 32%N n else [c]) ++ hang n a) in L. rewrite app_length in L. destruct (c =? 10)%N; simpl in L; lia.
  - change (hang n (c :: a)) with ((if (c =? 10)%N then 10%N :: repeat 32%N n else [c]) ++ hang n a) in E, L.
    change (hang n (d :: b)) with ((if (d =? 10)%N then 10%N :: repeat 32%N n else [d]) ++ hang n b) in E, L.
    assert (c = d) as <-.
    { destruct (N.eqb_spec c 10) as [->|Hc], (N.eqb_spec d 10) as [->|Hd]; auto; simpl in E; congruence. }
    rewrite <- !app_assoc in E. apply app_inv_head in E. rewrite !app_length in L. destruct (IH b E) as (k & -> & _); [lia|]. exists k. auto.
Qed.
Lemma hang_told {T} n (text : T -> bytes) : told_by 44 text -> told_by 44 (fun v => hang n (text v)).
Proof.
  assert (W : told_by 44 text -> forall a b r r', hang n (text a) ++ 44%N :: r = hang n (text b) ++ 44%N :: r' -> length (hang n (text a)) <= length (hang n (text b)) -> a = b).
  { intros Ht a b r r' E L.
    destruct (Nat.eq_dec (length (hang n (text a))) (length (hang n (text b)))) as [Q|Q].
    - assert (L2 : length (hang n (text b)) <= length (hang n (text a))) by lia.
      destruct (hang_cut n (text a) (text b) (44%N :: r) (ex_intro _ _ E) L) as (c & Ec & _). destruct (hang_cut n (text b) (text a) (44%N :: r') (ex_intro _ _ (eq_sym E)) L2) as (c' & Ec' & _).
      rewrite Ec' in Ec. rewrite <- app_assoc in Ec. rewrite <- (app_nil_r (text b)) in Ec at 1. apply app_inv_head in Ec. symmetry in Ec. apply app_eq_nil in Ec as [-> _]. rewrite app_nil_r in Ec'.
      apply (Ht a b [] []). congruence.
    - assert (E' : hang n (text a ++ [44%N]) ++ r = hang n (text b) ++ 44%N :: r') by (rewrite hang_app; change (hang n [44%N]) with [44%N]; rewrite <- app_assoc; exact E).
      destruct (hang_cut n (text a ++ [44%N]) (text b) r (ex_intro _ _ E')) as (c & Ec & _).
      { rewrite hang_app, app_length. change (hang n [44%N]) with [44%N]. simpl. lia. }
      apply (Ht a b (c ++ 44%N :: []) []). rewrite Ec, <- !app_assoc. auto. }
  intros Ht a b r r' E. destruct (Nat.le_ge_cases (length (hang n (text a))) (length (hang n (text b)))); [eapply W; eauto|]. symmetry. eapply W; eauto.
Qed.

Section Read.
Context {T : Type} (F1 F2 : flavor) (text : T -> bytes).
Hypothesis E1 : fl_index F1 <> IxEmpty.
Hypothesis E2 : fl_index F2 <> IxEmpty.
Hypothesis Hd : told_by 44 text.
Definition p1 := Eval cbv in (indented 2 (lit_bytes "(") ++ repeat 32%N 12).
Definition p2 := Eval cbv in (10%N :: repeat 32%N 12 ++ lit_bytes "Node {" ++ [10%N] ++ repeat 32%N 16 ++ lit_bytes "data: ").
Definition p3 := Eval cbv in (10%N :: indented 4 (lit_bytes "span: (") ++ repeat 32%N 20).
Definition p4 := Eval cbv in (10%N :: repeat 32%N 20).
Definition p5 := Eval cbv in (10%N :: indented 4 (lit_bytes "),") ++ indented 3 (lit_bytes "},") ++ indented 2 (lit_bytes "),")).
Lemma lines_shape F k (x : rose T) : fl_index F <> IxEmpty -> entry_lines F text (k, x) =
  p1 ++ decimal (Z.to_N k) ++ 44%N :: p2 ++ hang 16 (text (r_data x)) ++ 44%N :: p3 ++ decimal (s_start (r_span x)) ++ 44%N :: p4 ++ decimal (s_end (r_span x)) ++ 44%N :: p5.
Proof.
  intros HE. destruct x as [i kd d sp kids]. unfold entry_lines, node_lines, indented. cbn [r_data r_span].
  assert (Ix : forall i, index_text F i = decimal i) by (intros; unfold index_text; destruct (fl_index F); congruence). rewrite !Ix.
  change (4 * (1 + 3)) with 16. generalize (hang 16 (text d)) (decimal (Z.to_N k)) (decimal (s_start sp)) (decimal (s_end sp)). intros a b c e. rewrite <- !app_assoc. reflexivity.
Qed.
Lemma lines_read x y r r' : (0 <= fst x)%Z -> (0 <= fst y)%Z -> entry_lines F1 text x ++ r = entry_lines F2 text y ++ r' ->
  (fst x, (r_data (snd x), r_span (snd x))) = (fst y, (r_data (snd y), r_span (snd y))) /\ r = r'.
Proof.
  assert (Hc : ~ digit 44) by (unfold digit; lia).
  destruct x as [k x], y as [k' y]. cbn [fst snd]. intros Hk Hk' E. rewrite !lines_shape in E by auto.
  rewrite <- !app_assoc in E. apply app_inv_head in E. rewrite <- !app_comm_cons in E. apply decimal_stop in E as (Ek & _ & E); auto.
  rewrite <- !app_assoc in E. apply app_inv_head in E. rewrite <- !app_comm_cons in E.
  pose proof (hang_told 16 text Hd _ _ _ _ E) as Ed. rewrite Ed in E. apply app_inv_head in E. apply cons_both in E as [_ E].
  rewrite <- !app_assoc in E. apply app_inv_head in E. rewrite <- !app_comm_cons in E. apply decimal_stop in E as (Ea & _ & E); auto.
  rewrite <- !app_assoc in E. apply app_inv_head in E. rewrite <- !app_comm_cons in E. apply decimal_stop in E as (Eb & _ & E); auto.
  apply app_inv_head in E. split; auto. f_equal; [lia|]. f_equal; auto. destruct (r_span x), (r_span y); simpl in *; congruence.
Qed.
Lemma all_read z : (forall F x r, entry_lines F text x ++ r <> z) -> forall xs ys, Forall (fun y => (0 <= fst y)%Z) xs -> Forall (fun y => (0 <= fst y)%Z) ys ->
  concat (map (entry_lines F1 text) xs) ++ z = concat (map (entry_lines F2 text) ys) ++ z ->
  map (fun i : Z * rose T => (fst i, (r_data (snd i), r_span (snd i)))) xs = map (fun i => (fst i, (r_data (snd i), r_span (snd i)))) ys.
Proof.
  intros Hz. induction xs as [|x xs IH]; intros [|y ys] P1 P2 E; auto; cbn [map concat] in E; rewrite <- ?app_assoc in E.
  - exfalso. eapply Hz. symmetry. exact E.
  - exfalso. eapply Hz. exact E.
  - inversion P1; inversion P2; subst. apply lines_read in E as [Ex E]; auto. cbn [map]. rewrite Ex. f_equal. auto.
Qed.
End Read.

Lemma pretty_read T F1 F2 (xs ys : list (Z * rose T)) (text : T -> bytes) : fl_index F1 <> IxEmpty -> fl_index F2 <> IxEmpty -> told_by 44 text ->
  Forall (fun y => (0 <= fst y)%Z) xs -> Forall (fun y => (0 <= fst y)%Z) ys ->
  (entries_lines F1 text xs = entries_lines F2 text ys <->
   map (fun i => (fst i, (r_data (snd i), r_span (snd i)))) xs = map (fun i => (fst i, (r_data (snd i), r_span (snd i)))) ys).
Proof.
  intros E1 E2 Hd P1 P2. unfold entries_lines. split.
  - intros E. apply app_inv_head in E. destruct xs as [|x xs], ys as [|y ys]; auto.
    { exfalso. apply (f_equal (fun s => nth 5 s 0%N)) in E. lazy in E. discriminate E. } { exfalso. apply (f_equal (fun s => nth 5 s 0%N)) in E. lazy in E. discriminate E. }
    rewrite <- !app_assoc in E. apply app_inv_head in E. refine (all_read F1 F2 text E1 E2 Hd _ _ _ _ P1 P2 E).
    intros F [k [i kd d sp kids]] r X. apply (f_equal (fun s => nth 4 s 0%N)) in X. lazy in X. discriminate X.
  - intros E. f_equal. f_equal.
    assert (G : map (entry_lines F1 text) xs = map (entry_lines F2 text) ys).
    { clear P1 P2. revert ys E. induction xs as [|[k x] xs IH]; intros [|[k' y] ys] E; try discriminate; auto.
      cbn [map] in E. apply cons_both in E as [Ex E]. cbn [map]. f_equal; [|apply IH; auto]. rewrite !lines_shape by auto. cbn [fst snd] in Ex. congruence. }
    destruct xs, ys; try discriminate; auto. rewrite G. auto.
Qed.
(** ... and it determines the document, for values whose texts, of any number of lines, can be told apart once a comma follows. *)
Theorem C74_readable : forall T F1 F2 (t1 t2 : tree T) l1 l2 (debug : T -> list bytes) ps1 ps2, shows F1 t1 l1 -> shows F2 t2 l2 ->
  fl_index F1 <> IxEmpty -> fl_index F2 <> IxEmpty -> told_by 44 (fun v => concat (debug v)) ->
  tree_pretty F1 debug t1 = Ok ps1 -> tree_pretty F2 debug t2 = Ok ps2 ->
  (concat ps1 = concat ps2 <-> map erase l1 = map erase l2).
Proof.
  intros T F1 F2 t1 t2 l1 l2 debug ps1 ps2 H1 H2 E1 E2 Hd R1 R2.
  destruct (C74_tree T F1 t1 l1 debug H1) as (q1 & Q1 & X1). rewrite R1 in Q1. injection Q1 as <-. rewrite X1.
  destruct (C74_tree T F2 t2 l2 debug H2) as (q2 & Q2 & X2). rewrite R2 in Q2. injection Q2 as <-. rewrite X2. clear R1 R2 X1 X2 ps1 ps2.
  set (text := fun v => concat (debug v)) in *. rewrite <- depths_erase.
  assert (P1 : Forall (fun y => (0 <= fst y)%Z) (flat_map (preorder_depth 0) l1)) by (apply depths_pos; lia).
  assert (P2 : Forall (fun y => (0 <= fst y)%Z) (flat_map (preorder_depth 0) l2)) by (apply depths_pos; lia).
  apply pretty_read; auto.
Qed.
Print Assumptions C74_readable.

(** The hypotheses are met: values with texts of one and of several lines, commas in them. *)
Definition bool_writes (b : bool) : list bytes := if b then [lit_bytes "Pair("; [10%N]; lit_bytes "    1,"; [10%N; 41%N]] else [lit_bytes "Word"].
Definition pretty_ops : list (op bool) := [OOpen true; OToken false 3; OClose].
Definition pretty_tree : tree bool := match build (w_builder (run_world flavor_default pretty_ops)) with Ok t => t | _ => tree_new end.
Definition shown (s : string) : bytes := lit_bytes s.
Example C74_inhabited : told_by 44 (fun v => concat (bool_writes v)) /\
  (exists t l, finished flavor_default pretty_ops t l /\ shows flavor_default t l /\
    exists ps, tree_pretty flavor_default bool_writes t = Ok ps /\ concat ps = shown
"Tree(
    [
        (
            0,
            Node {
                data: Pair(
                    1,
                ),
                span: (
                    0,
                    3,
                ),
            },
        ),
        (
            1,
            Node {
                data: Word,
                span: (
                    0,
                    3,
                ),
            },
        ),
    ],
)") /\
  (exists ps, tree_pretty flavor_default bool_writes tree_new = Ok ps /\ concat ps = shown
"Tree(
    [],
)").
Proof.
  split; [intros [] [] r r' E; auto; simpl in E; discriminate|]. split; [|eexists; split; vm_compute; reflexivity].
  exists pretty_tree. assert (H : exists l, finished flavor_default pretty_ops pretty_tree l) by (eexists; compute_finished).
  destruct H as (l & H). exists l. split; [exact H|]. split; [apply finished_shows with (1 := H)|]. eexists. split; vm_compute; reflexivity.
Qed.
