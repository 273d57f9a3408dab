(** C55: the program examples/synthetic_strings.rs. *)
From Coq Require Import Strings.String Lia List NArith.
Import ListNotations.
From Verif Require Import Base Pointer Index Tree Builder Hist Node Iter Print Spec SpecEq Rep TreeRep Enum Walk WalkTree WalkThms Nav
  SpecProgram Text ClientMath ClientSynth SpecSynth PropsProgram ClientFacts Demo.
From Verif Require PropsMath CalcParse CalcEval PropsCalcEval.

(** ** The storage *)
Lemma str_eqb_eq a : forall b, str_eqb a b = true <-> a = b.
Proof.
  induction a as [|x a IH]; intros [|y b]; simpl; split; intros H; try discriminate; auto.
  - apply andb_prop in H as [H1 H2]. apply N.eqb_eq in H1. apply IH in H2. congruence.
  - injection H as -> ->. rewrite N.eqb_refl. simpl. apply IH. auto.
Qed.
Lemma defined_snoc defs n v name : defined (defs ++ [(n, v)]) name = if list_eq_dec N.eq_dec n name then Some v else defined defs name.
Proof.
  induction defs as [|[m u] defs IH]; simpl; auto.
  rewrite IH. destruct (list_eq_dec N.eq_dec n name); auto.
Qed.
Lemma store_facts defs : ys_storage (store_of defs) = map snd defs /\
  forall name, match defined defs name with
               | None => y_lookup (store_of defs) name = None
               | Some v => exists id, y_lookup (store_of defs) name = Some id /\ nth_error (map snd defs) id = Some v
               end.
Proof.
  induction defs as [|[n v] defs [IH1 IH2]] using rev_ind; [split; simpl; auto|].
  unfold store_of in *. rewrite fold_left_app. cbn [fold_left fst snd]. split.
  - simpl. rewrite IH1, map_app. auto.
  - intros name. rewrite defined_snoc. specialize (IH2 name). unfold y_lookup in *. cbn [y_insert ys_lookup find fst].
    destruct (list_eq_dec N.eq_dec n name) as [->|Hn].
    + assert (str_eqb name name = true) as -> by (apply str_eqb_eq; auto). exists (length (map snd defs)). simpl. rewrite IH1. split; auto.
      rewrite map_app, nth_error_app2, Nat.sub_diag; auto.
    + destruct (str_eqb n name) eqn:E; [apply str_eqb_eq in E; congruence|].
      destruct (defined defs name) as [u|]; auto. destruct IH2 as (id & H1 & H2). exists id. split; auto.
      rewrite map_app. rewrite nth_error_app1; auto. apply nth_error_Some. congruence.
Qed.

(** ** The lexer *)
Definition kind_of (store : ystore) (k : word) : ysyntax :=
  match k with
  | WSpace => YWhitespace | WLetters => YLiteral | WOther => YError
  | WVariable name => match y_lookup store name with Some id => YSynthetic id | None => YError end
  end.

Lemma alpha_range c : is_alpha c = true -> (65 <= c <= 90 \/ 97 <= c <= 122)%N.
Proof.
  unfold is_alpha, is_lower. intros H. apply Bool.orb_prop in H as [H|H]; apply andb_prop in H as [H1 H2]; apply N.leb_le in H1, H2; lia.
Qed.
Lemma alpha_plain c : is_alpha c = true -> is_whitespace c = false /\ (c =? 36)%N = false.
Proof.
  intros H. apply alpha_range in H. split; [|apply N.eqb_neq; lia]. unfold is_whitespace.
  repeat match goal with |- context [(?a <=? ?b)%N] => destruct (N.leb_spec a b); try lia end;
  repeat match goal with |- context [(?a =? ?b)%N] => destruct (N.eqb_spec a b); try lia end; auto.
Qed.

Lemma next_word store k s : is_word k s -> forall pre rest, complete k rest ->
  y_next (pre ++ s ++ rest) store (char_indices (str_len pre) (s ++ rest)) =
  Done (Some ((kind_of store k, str_len s), char_indices (str_len pre + str_len s) rest)).
Proof.
  intros H pre rest He. set (o := str_len pre). unfold y_next.
  assert (G : match char_indices (o + str_len s) rest with (n, _) :: _ => n | [] => str_len (pre ++ s ++ rest) end = (o + str_len s)%N).
  { destruct rest as [|c rest]; simpl; auto. rewrite app_nil_r, PropsMath.str_len_app. auto. }
  assert (K : forall c u cond, s = c :: u -> forallb cond u = true -> match rest with [] => True | c :: _ => cond c = false end ->
     eat cond (char_indices (o + len_utf8 c) (u ++ rest)) = char_indices (o + str_len s) rest).
  { intros c u cond -> H1 H2. rewrite PropsMath.eat_prefix; auto. simpl. rewrite N.add_assoc. auto. }
  destruct H as [c s H1 H2|c s H1 H2|s H2|c s H1 H3 H4 H2]; cbn [app char_indices].
  - rewrite H1, (K c s _ eq_refl H2) by (destruct rest; auto). cbn beta iota zeta. change (c :: s ++ rest) with ((c :: s) ++ rest). rewrite G. do 4 f_equal. lia.
  - destruct (alpha_plain c H1) as [-> ->]. rewrite H1, (K c s _ eq_refl H2) by (destruct rest; auto). cbn beta iota zeta.
    change (c :: s ++ rest) with ((c :: s) ++ rest). rewrite G. do 4 f_equal. lia.
  - change (is_whitespace 36) with false. change (36 =? 36)%N with true. cbn beta iota zeta.
    rewrite (K 36%N s _ eq_refl H2) by (destruct rest; auto). change (36%N :: s ++ rest) with ((36%N :: s) ++ rest). rewrite G.
    assert (E : str_get (pre ++ (36%N :: s) ++ rest) (o + 1, o + str_len (36%N :: s))%N = Some s).
    { replace (pre ++ (36%N :: s) ++ rest) with ((pre ++ [36%N]) ++ s ++ rest) by (rewrite <- app_assoc; auto).
      replace (o + 1)%N with (str_len (pre ++ [36%N])) by (rewrite PropsMath.str_len_app; auto).
      replace (o + str_len (36%N :: s))%N with (str_len (pre ++ [36%N]) + str_len s)%N by (rewrite PropsMath.str_len_app; unfold o; change (str_len (36%N :: s)) with (1 + str_len s)%N; change (str_len [36%N]) with 1%N; lia).
      apply CalcParse.str_get_app. }
    rewrite E. cbn [kind_of]. rewrite G. do 4 f_equal. lia.
  - rewrite H1, H3. destruct (N.eqb_spec c 36) as [E|_]; [congruence|].
    rewrite (K c s _ eq_refl H2) by (destruct rest; auto; simpl in He; rewrite He; auto). cbn beta iota zeta.
    change (c :: s ++ rest) with ((c :: s) ++ rest). rewrite G. do 4 f_equal. lia.
Qed.

Lemma word_nonempty k s : is_word k s -> s <> [].
Proof. intros []; discriminate. Qed.
Lemma some_word s : s <> [] -> exists k a rest, s = a ++ rest /\ is_word k a /\ complete k rest.
Proof.
  destruct s as [|c s]; [congruence|intros _].
  destruct (is_whitespace c) eqn:E0.
  { destruct (PropsMath.take_prefix is_whitespace s) as (a & rest & -> & H1 & H2). exists WSpace, (c :: a), rest. repeat split; auto. constructor; auto. }
  destruct (is_alpha c) eqn:E1.
  { destruct (PropsMath.take_prefix is_alpha s) as (a & rest & -> & H1 & H2). exists WLetters, (c :: a), rest. repeat split; auto. constructor; auto. }
  destruct (N.eq_dec c 36) as [->|E2].
  { destruct (PropsMath.take_prefix is_lower s) as (a & rest & -> & H1 & H2). exists (WVariable a), (36%N :: a), rest. repeat split; auto. constructor; auto. }
  destruct (PropsMath.take_prefix (fun c => negb (is_whitespace c)) s) as (a & rest & -> & H1 & H2). exists WOther, (c :: a), rest. split; [auto|]. split.
  - constructor; auto.
  - destruct rest; simpl; auto. apply Bool.negb_false_iff in H2. auto.
Qed.
Lemma words_total s : exists ws, words s ws.
Proof.
  remember (length s) as n eqn:E. assert (L : length s <= n) by lia. clear E. revert s L.
  induction n as [|n IH]; intros s L.
  - destruct s; [|simpl in L; lia]. exists []. constructor.
  - destruct s as [|c s]; [exists []; constructor|]. destruct (some_word (c :: s)) as (k & a & rest & E & H1 & H2); [discriminate|].
    rewrite E in *. destruct (IH rest) as (ws & H). { pose proof (word_nonempty _ _ H1). destruct a; [congruence|]. rewrite app_length in L. simpl in L. lia. }
    eexists. econstructor; eauto.
Qed.
Lemma words_text s ws : words s ws -> concat (map snd ws) = s.
Proof. induction 1; simpl; congruence. Qed.

(** There is one way to cut. *)
Lemma longest_prefix (cond : N -> bool) a : forall b r r', forallb cond a = true -> forallb cond b = true ->
  match r with [] => True | c :: _ => cond c = false end -> match r' with [] => True | c :: _ => cond c = false end ->
  a ++ r = b ++ r' -> a = b /\ r = r'.
Proof.
  induction a as [|x a IH]; intros [|y b] r r' Ha Hb Hr Hr' E; simpl in *; auto.
  - subst. apply andb_prop in Hb as [Hb _]. congruence.
  - subst. apply andb_prop in Ha as [Ha _]. congruence.
  - injection E as -> E. apply andb_prop in Ha as [_ Ha]. apply andb_prop in Hb as [_ Hb]. destruct (IH b r r') as [-> ->]; auto.
Qed.
Lemma word_unique k s rest k' s' rest' : is_word k s -> complete k rest -> is_word k' s' -> complete k' rest' ->
  s ++ rest = s' ++ rest' -> k = k' /\ s = s' /\ rest = rest'.
Proof.
  assert (W36 : is_whitespace 36 = false) by reflexivity. assert (A36 : is_alpha 36 = false) by reflexivity.
  intros H He H' He' E.
  destruct H as [c s H1 H2|c s H1 H2|s H2|c s H1 H3 H4 H2], H' as [c' s' H1' H2'|c' s' H1' H2'|s' H2'|c' s' H1' H3' H4' H2'];
    cbn [app] in E; pose proof (f_equal (hd 0%N) E) as Ec; apply (f_equal (@tl N)) in E; cbn [hd tl] in Ec, E; subst; try congruence;
    try (match goal with H : is_alpha ?c = true |- _ => destruct (alpha_plain c H) end; congruence).
  - apply (longest_prefix is_whitespace) in E as [-> ->]; auto; unfold complete in *; destruct rest, rest'; auto.
  - apply (longest_prefix is_alpha) in E as [-> ->]; auto; unfold complete in *; destruct rest, rest'; auto.
  - apply (longest_prefix is_lower) in E as [-> ->]; auto; unfold complete in *; destruct rest, rest'; auto.
  - apply (longest_prefix (fun c => negb (is_whitespace c))) in E as [-> ->]; auto; unfold complete in *.
    + destruct rest; auto. rewrite He. auto.
    + destruct rest'; auto. rewrite He'. auto.
Qed.
Lemma words_unique s ws : words s ws -> forall ws', words s ws' -> ws' = ws.
Proof.
  induction 1 as [|k s rest ws H1 H2 H IH]; intros ws' H'.
  - inversion H' as [|k s rest ws H1 H2 H3 E]; auto. exfalso. apply word_nonempty in H1. destruct s; [congruence|discriminate].
  - inversion H' as [E|k' s' rest' ws2 H1' H2' H3' E]; subst.
    + exfalso. apply word_nonempty in H1. destruct s; [congruence|discriminate].
    + destruct (word_unique _ _ _ _ _ _ H1' H2' H1 H2 E) as (-> & -> & ->). f_equal. auto.
Qed.

(** ** The program *)
Definition tokens_of (store : ystore) (ws : list (word * str)) : list (ysyntax * N) := map (fun w => (kind_of store (fst w), str_len (snd w))) ws.

Lemma y_tokens_does F store rest ws : words rest ws -> forall source pre fuel w, source = pre ++ rest -> length rest < fuel ->
  y_tokens fuel F source store w (char_indices (str_len pre) rest) =
  match does F w (toks (tokens_of store ws)) 0 (fun w => Ok w) with Ok w => Done w | Err e => Failed e | Diverge => Endless end.
Proof.
  induction 1 as [|k s rest ws H1 H2 H IH]; intros source pre fuel w -> Hf; (destruct fuel as [|fuel]; [lia|]).
  - reflexivity.
  - cbn [y_tokens]. rewrite (next_word store k s H1 pre rest H2).
    cbn [tokens_of map]. rewrite does_toks_cons. cbn [fst snd]. destruct (call F _ w) as [w1|e|]; cbn [bind]; auto.
    rewrite <- PropsMath.str_len_app. apply IH; [rewrite app_assoc; auto|].
    pose proof (word_nonempty _ _ H1). destruct s; [congruence|]. rewrite app_length in Hf. simpl in Hf. lia.
Qed.

Lemma y_eval_words F defs t source : fl_index F <> IxEmpty ->
  forall ws pre post items it count fuel, source = pre ++ concat (map snd ws) ++ post ->
  enumerates (total (children_next (t_nodes t))) it items ->
  map (fun n => (node_value n, node_span n)) items = map (fun s : shape ysyntax => let 'Sh d sp _ := s in (d, sp))
     (lay_list (str_len pre) (map (fun t => GTok (fst t) (snd t)) (tokens_of (store_of defs) ws))) ->
  length items < fuel ->
  y_eval fuel F source (store_of defs) (t_nodes t) it count = Done (evaluated defs count ws).
Proof.
  intros HE. induction ws as [|[k s] ws IH]; intros pre post items it count fuel Es En Ev Hf; (destruct fuel as [|fuel]; [lia|]); cbn [y_eval].
  - destruct items; [|discriminate]. apply enumerates_nil in En as (it' & E & _). unfold total in E. injection E as ->. auto.
  - destruct items as [|n items]; [discriminate|]. apply enumerates_cons in En as (it' & E & En). unfold total in E. injection E as ->.
    cbn [tokens_of map lay_list fst snd] in Ev. cbn [lay width] in Ev. injection Ev as Ed Esp Ev. fold (tokens_of (store_of defs) ws) in Ev.
    assert (G : forall c, y_eval fuel F source (store_of defs) (t_nodes t) it' c = Done (evaluated defs c ws)).
    { intros c. apply (IH (pre ++ s) post items); auto.
      - rewrite Es. cbn [map snd concat]. rewrite <- !app_assoc. auto.
      - rewrite Ev, PropsMath.str_len_app. auto.
      - simpl in Hf. lia. }
    assert (Sl : str_get source (node_range F n) = Some s).
    { assert (node_range F n = (str_len pre, str_len pre + str_len s)%N) as ->.
      { unfold node_range, span_range, ix_as_usize. rewrite Esp. simpl. destruct (fl_index F); auto. congruence. }
      rewrite Es. cbn [map snd concat]. rewrite <- app_assoc. apply CalcParse.str_get_app. }
    rewrite Ed, Sl. destruct (store_facts defs) as [S1 S2].
    destruct k as [| |name|]; cbn [kind_of evaluated fst snd]; rewrite ?G; auto.
    specialize (S2 name). destruct (defined defs name) as [v|].
    + destruct S2 as (id & -> & Hv). unfold y_get. rewrite S1, Hv. auto.
    + rewrite S2. auto.
Qed.

Lemma roots_lay defs ws : forall p, roots defs p ws (lay_list p (map (fun t => GTok (fst t) (snd t)) (tokens_of (store_of defs) ws))).
Proof.
  induction ws as [|[k s] ws IH]; intros p; simpl; constructor; auto.
  destruct k as [| |name|]; simpl; auto. destruct (store_facts defs) as [_ S2]. specialize (S2 name).
  destruct (defined defs name) as [v|]; [destruct S2 as (id & -> & Hv); eauto|rewrite S2; auto].
Qed.

(** The text is cut into words in one way, nothing is lost.  Unless there is no room (more nodes than the
    pointer width has, or a longer text than the index has), which is an error and not a panic, the program ends;
    its tree has the words as roots, each where it is in the text, and it prints what the words stand for. *)
Theorem C55_program : forall F source defs, vec_flavor F -> fl_index F <> IxEmpty ->
  exists ws, words source ws /\ (forall ws', words source ws' -> ws' = ws) /\ concat (map snd ws) = source /\
    (y_program F source (store_of defs) = Failed Overflow \/
     exists t ops l, y_program F source (store_of defs) = Done (t, evaluated defs 0 ws) /\
       builds F ops t /\ document F ops l /\ roots defs 0 ws (map erase l) /\ tree_len t = length ws) /\
    ((N.of_nat (length ws) < int_max F (fl_width F))%N -> (str_len source <= ix_max F)%N ->
     y_program F source (store_of defs) <> Failed Overflow).
Proof.
  intros F source defs HF HE. destruct (words_total source) as (ws & Hw). exists ws. split; auto. split; [apply words_unique; auto|].
  pose proof (words_text _ _ Hw) as Ht. split; auto.
  set (store := store_of defs) in *. set (q := toks (tokens_of store ws)).
  assert (Hgs : program_trees [] q = map (fun t => GTok (fst t) (snd t)) (tokens_of store ws)) by (unfold q; rewrite trees_toks; auto).
  assert (Hsz : sizes (program_trees [] q) = length ws).
  { rewrite Hgs. unfold tokens_of. rewrite map_map. clear. induction ws; simpl; auto. }
  assert (Hwd : widths (program_trees [] q) = str_len source).
  { rewrite Hgs, <- Ht. unfold tokens_of. rewrite map_map. clear. induction ws as [|w ws IH]; auto.
    cbn [map concat snd]. rewrite PropsMath.str_len_app, <- IH. auto. }
  destruct (PropsMath.yields_program F q HF HE (scoped_toks _ _)) as [Y1 Y2].
  assert (P : y_program F source store =
    match build_try F (program_calls 0 0 q) with
    | Ok t => match y_eval (S (tree_len t)) F source store (t_nodes t) (tree_children t) 0 with
              | Done ls => Done (t, ls) | Failed e => Failed e | Panicked => Panicked | Endless => Endless end
    | Err e => Failed e
    | Diverge => Endless
    end).
  { unfold y_program. change 0%N with (str_len []) at 1. rewrite (y_tokens_does F store source ws Hw source [] (S (length source)) world_new eq_refl (le_n _)).
    unfold build_try, does. change (length (w_env world_new)) with 0. fold q.
    destruct (run_try F world_new (program_calls 0 0 q)) as [w| |]; cbn [bind]; auto. }
  rewrite Hsz, Hwd in Y2.
  assert (R : forall t, build_try F (program_calls 0 0 q) = Ok t -> exists ls, y_program F source store = Done (t, ls)).
  { intros t Et. destruct Y1 as [Y1|(t' & ops & l & Y1 & B & D & S & L)]; [congruence|]. rewrite Y1 in Et. injection Et as <-.
    pose proof (built_rep F ops t' l HF D B) as Hr.
    destruct (children_thm t' l Hr (tree_children t') None l) as (items & En & Hit); [left; auto|apply tree_children_is; auto|].
    assert (Ev : map (fun n => (node_value n, node_span n)) items = map (fun s : shape ysyntax => let 'Sh d sp _ := s in (d, sp))
       (lay_list (str_len []) (map (fun t => GTok (fst t) (snd t)) (tokens_of store ws)))).
    { rewrite <- Hgs. change (str_len []) with 0%N. rewrite <- S. clear -Hit. induction Hit as [|n x ns xs [_ V] _ IH]; auto. simpl. rewrite IH. f_equal.
      destruct x as [i kd d sp kids]. unfold view, rview in V. simpl in *. congruence. }
    assert (Hlen : length items = length ws). { apply (f_equal (@length _)) in Ev. rewrite !map_length in Ev. rewrite Ev. unfold tokens_of. rewrite map_map. clear.
      generalize (str_len []). induction ws; intros c; simpl; auto. }
    rewrite P, Y1. unfold store. rewrite (y_eval_words F defs t' source HE ws [] [] items (tree_children t') 0 (Datatypes.S (tree_len t'))); auto; [eauto| |].
    - simpl. rewrite app_nil_r. auto.
    - rewrite L, Hsz. lia. }
  split.
  - destruct Y1 as [Y1|(t & ops & l & Y1 & B & D & S & L)]; [left; rewrite P, Y1; auto|right].
    exists t, ops, l.
    pose proof (built_rep F ops t l HF D B) as Hr.
    destruct (children_thm t l Hr (tree_children t) None l) as (items & En & Hit); [left; auto|apply tree_children_is; auto|].
    assert (Ev : map (fun n => (node_value n, node_span n)) items = map (fun s : shape ysyntax => let 'Sh d sp _ := s in (d, sp))
       (lay_list (str_len []) (map (fun t => GTok (fst t) (snd t)) (tokens_of store ws)))).
    { rewrite <- Hgs. change (str_len []) with 0%N. rewrite <- S. clear -Hit. induction Hit as [|n x ns xs [_ V] _ IH]; auto. simpl. rewrite IH. f_equal.
      destruct x as [i kd d sp kids]. unfold view, rview in V. simpl in *. congruence. }
    assert (Hlen : length items = length ws). { apply (f_equal (@length _)) in Ev. rewrite !map_length in Ev. rewrite Ev. unfold tokens_of. rewrite map_map. clear.
      generalize (str_len []). induction ws; intros c; simpl; auto. }
    split; [|split; [auto|split; [auto|split; [|congruence]]]].
    + rewrite P, Y1. unfold store. rewrite (y_eval_words F defs t source HE ws [] [] items (tree_children t) 0 (Datatypes.S (tree_len t))); auto.
      * simpl. rewrite app_nil_r. auto.
      * rewrite L, Hsz. lia.
    + rewrite S, Hgs. apply roots_lay.
  - intros Hn Hs. rewrite P. specialize (Y2 Hn Hs). destruct (build_try F (program_calls 0 0 q)) as [t|e|] eqn:Eb; try congruence.
    destruct (R t eq_refl) as (ls & Els). rewrite P in Els. rewrite Els. discriminate.
Qed.
Print Assumptions C55_program.

(** [Hello $world !x $nobody] with the program's definition, as in the documentation (src/lib.rs). *)
Definition ascii (s : String.string) : str := map Ascii.N_of_ascii (String.list_ascii_of_string s).
Arguments ascii _%string_scope.
Example C55_hello : let defs := [(ascii "world", ascii "Earth")] in
  match y_program flavor_default (ascii "Hello $world !x $nobody") (store_of defs) with
  | Done (t, ls) => tree_len t = 7 /\ ls = [YValue 0 (ascii "Hello"); YValue 1 (ascii "Earth"); YErrorLine (ascii "!x"); YErrorLine (ascii "$nobody")]
  | _ => False
  end /\ vec_flavor flavor_default /\ fl_index flavor_default <> IxEmpty.
Proof. vm_compute. repeat split; auto; discriminate. Qed.
