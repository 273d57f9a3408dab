(** C75: the text of every tree, however obtained, also with misused checkpoints. *)
From Coq Require Import Strings.String Lia ZArith List Permutation.
Import ListNotations.
From Verif Require Import Base Pointer Index Tree Builder Hist Node Iter Query Edit Print Render Pretty Spec SpecMap SpecEdit SpecReads SpecModified SpecEq SpecTour SpecShown SpecText SpecPretty SpecPrinted
  Rep Enum Walk AllHist AllPlaced PropsTree PropsSafe PropsFused PropsEq PropsDebug AllReads Demo PropsMisuse PropsModified Tour PropsTour PropsShown PropsAfter PropsText PropsPretty Deep.
Open Scope nat_scope.
Notation shown := SpecShown.shown.

Lemma shown_deep T F (t : tree T) l : obtained F t l -> forall i, In i (shown t l) -> deep_as_nested l (fst i) (snd i).
Proof.
  intros Ho i Hi. destruct (C71_either T F t l Ho) as (HF & Hl & [(ops & Hw & Hb)|M]).
  - pose proof (builds_so_far _ _ _ _ Hb) as Et. subst t. pose proof (history_deep T F ops l HF Hl) as G. unfold SpecShown.shown in Hi. apply in_map_iff in Hi as (v & <- & Hv). cbn [fst snd].
    assert (E : tour (named (tree_so_far F ops)) l = tour (par (t_nodes (tree_so_far F ops))) l).
    { unfold tour. f_equal. apply (tour_ext T _ _ (fun j => named_par T F ops j HF) (size_l l)). auto. }
    rewrite E in Hv. apply filter_In in Hv as [Hv _]. rewrite Forall_forall in G. destruct (G v Hv) as (j & Hj & L). exists j. split; auto. split; auto. eapply depth_pos; [|exact Hj]. lia.
  - rewrite (mod_shown T F t l M) in Hi. destruct i as [d x]. exists d. split; auto. cbn [fst]. split; [|lia]. eapply depth_pos; [|exact Hi]. lia.
Qed.
Lemma shown_pos T F (t : tree T) l : obtained F t l -> Forall (fun y => (0 <= fst y)%Z) (shown t l).
Proof. intros Ho. apply Forall_forall. intros i Hi. destruct (shown_deep T F t l Ho i Hi) as (j & _ & L). lia. Qed.

(** The depths that [with_depths] gives are never below the nesting, and never negative. *)
Theorem C75_depths : forall T F (t : tree T) l, obtained F t l -> fits F t ->
  exists items, enumerates (walk_depths_next F (t_nodes t)) (tree_walk t) items /\
    Forall (fun i => exists x, view (snd i) = rview x /\ deep_as_nested l (fst i) x) items.
Proof.
  intros T F t l Ho Hf. destruct (obtained_shown T F t l Ho Hf) as (items & A & B & _). exists items. split; auto.
  pose proof (shown_deep T F t l Ho) as G. revert B G. generalize (shown t l). clear. induction items as [|[k n] items IH]; intros [|[k' x] xs] B G; try discriminate; auto.
  cbn [map fst snd] in B. apply cons_both in B as [B1 B]. assert (Ek : k = k') by congruence. assert (V : view n = rview x) by congruence. subst k'. constructor.
  - exists x. cbn [fst snd]. split; [exact V|]. apply (G (k, x)). simpl; auto.
  - apply (IH xs B). intros i Hi. apply G. simpl; auto.
Qed.
Print Assumptions C75_depths.

(** [print] into any sink: what the walk shows, line by line, until the sink refuses a piece or the indentation is beyond the limit. *)
Theorem C75_print : forall T X W F (t : tree T) l (source : span -> option X) debug quote limit
  (write_all : W -> list N -> W * bool) w, obtained F t l -> fits F t ->
  exists pieces, concat pieces = lines_text source debug quote (shallow limit (shown t l)) /\
    print_to F t source debug quote limit write_all w =
    (let '(w', accepted) := write_pieces write_all w pieces in
     (w', if accepted then if length (shallow limit (shown t l)) =? length (shown t l) then Printed else WidthPanic
          else WriteFailed)).
Proof.
  intros T X W F t l source debug quote limit write_all w Ho Hf. destruct (obtained_shown T F t l Ho Hf) as (items & A & B & C).
  apply (print_loop_exact F source debug quote limit write_all (t_nodes t) items); auto.
  - unfold tree_len in *. lia.
  - eapply shown_pos; eauto.
Qed.
Print Assumptions C75_print.

Lemma printed_shown T X F (t : tree T) l (source : span -> option X) debug quote w : obtained F t l -> fits F t ->
  print_to F t source debug quote None vec_write_all w = (w ++ lines_text source debug quote (shown t l), Printed).
Proof.
  intros Ho Hf. destruct (C75_print T X _ F t l source debug quote None vec_write_all w Ho Hf) as (ps & Ep & E).
  rewrite shallow_none in Ep, E. rewrite E, vec_pieces, Nat.eqb_refl, Ep. auto.
Qed.
(** Into a vector, [{:?}] and [{:#?}]: to the byte. *)
Theorem C75_text : forall T X F (t : tree T) l (source : span -> option X) debug quote (writes : T -> list (list N)) w, obtained F t l -> fits F t ->
  print_to F t source debug quote None vec_write_all w = (w ++ lines_text source debug quote (shown t l), Printed) /\
  tree_debug F debug t = Ok (entries_text F debug (shown t l)) /\
  exists ps, tree_pretty F writes t = Ok ps /\ concat ps = entries_lines F (fun v => concat (writes v)) (shown t l).
Proof.
  intros T X F t l source debug quote writes w Ho Hf. destruct (C71_print T X F t l source Ho Hf) as (_ & D & _). pose proof (shown_pos T F t l Ho) as P.
  split; [apply printed_shown; auto|]. split; [apply debug_entries; auto|]. apply pretty_entries; auto.
Qed.
Print Assumptions C75_text.

Lemma show_same T (eqT : T -> T -> bool) (xs ys : list (Z * rose T)) : (forall a b, eqT a b = true <-> a = b) ->
  (show_alike eqT xs ys <-> map entry_of xs = map entry_of ys).
Proof.
  intros He. unfold show_alike. revert ys. induction xs as [|[k x] xs IH]; intros [|[k' y] ys]; cbn [map]; split; intros H; auto; try discriminate; try (inversion H; fail).
  - inversion H as [|? ? ? ? (H1 & H2 & H3) H4]; subst. cbn [fst snd] in *. apply He in H2. f_equal; [unfold entry_of; cbn [fst snd]; congruence|]. apply IH. auto.
  - apply cons_both in H as [H1 H]. unfold entry_of in H1. cbn [fst snd] in H1. injection H1 as -> E1 E2. constructor; [|apply IH; auto]. cbn [fst snd]. rewrite He. auto.
Qed.
Lemma lines_same T X (source : span -> option X) (debug : T -> list N) quote (xs ys : list (Z * rose T)) z z' : flow xs z -> flow ys z' -> map entry_of xs = map entry_of ys ->
  map (line_text source debug quote) xs = map (line_text source debug quote) ys.
Proof.
  intros H1 H2 E. assert (K : map (fun i => has_kids (snd i)) xs = map (fun i => has_kids (snd i)) ys).
  { eapply flow_kids; eauto. apply (f_equal (map fst)) in E. rewrite !map_map in E. exact E. }
  clear H1 H2. revert ys E K. induction xs as [|[k x] xs IH]; intros [|[k' y] ys] E K; try discriminate; auto. cbn [map] in *. apply cons_both in E as [E1 E]. apply cons_both in K as [K1 K]. f_equal; auto.
  unfold entry_of in E1. cbn [fst snd] in *. injection E1 as -> Ed Es. rewrite !line_shape, Ed, Es. unfold ending_bytes. unfold has_kids in K1. rewrite Es. destruct (r_kids x), (r_kids y); try discriminate; auto.
Qed.

(** Two trees are equal exactly when they have the same text, and that of [print] and the two of [Debug] agree in this: for values that are equal only
    when they are the same and whose texts can be told apart. *)
Theorem C75_equal : forall T X (eqT : T -> T -> bool) F1 F2 (t1 t2 : tree T) l1 l2 (source : span -> option X) debug quote (writes : T -> list (list N)) ps1 ps2,
  obtained F1 t1 l1 -> obtained F2 t2 l2 -> fits F1 t1 -> fits F2 t2 -> fl_index F1 <> IxEmpty -> fl_index F2 <> IxEmpty ->
  (forall a b, eqT a b = true <-> a = b) ->
  tree_pretty F1 writes t1 = Ok ps1 -> tree_pretty F2 writes t2 = Ok ps2 ->
  (told_by 44 debug -> (tree_eq F1 F2 eqT t1 t2 = Ok true <-> tree_debug F1 debug t1 = tree_debug F2 debug t2)) /\
  (told_by 44 (fun v => concat (writes v)) -> (tree_eq F1 F2 eqT t1 t2 = Ok true <-> concat ps1 = concat ps2)) /\
  (told_by 64 debug -> (forall d r, debug d <> 32%N :: r) -> told_by 10 quote -> (forall x r, quote x <> 43%N :: r) ->
   (tree_eq F1 F2 eqT t1 t2 = Ok true <->
    print_to F1 t1 source debug quote None vec_write_all [] = print_to F2 t2 source debug quote None vec_write_all [])).
Proof.
  intros T X eqT F1 F2 t1 t2 l1 l2 source debug quote writes ps1 ps2 O1 O2 Hf1 Hf2 E1 E2 He R1 R2.
  destruct (C71_equal T eqT F1 F2 t1 t2 l1 l2 O1 O2 Hf1 Hf2) as (b & Eb & Hb). rewrite (show_same T eqT _ _ He) in Hb. rewrite Eb.
  assert (Q : Ok b = Ok true <-> map entry_of (shown t1 l1) = map entry_of (shown t2 l2)) by (rewrite <- Hb; split; intros; congruence). rewrite Q. clear Q Hb Eb b He eqT.
  destruct (C75_text T X F1 t1 l1 source debug quote writes [] O1 Hf1) as (P1 & D1 & q1 & Q1 & X1). rewrite R1 in Q1. injection Q1 as <-.
  destruct (C75_text T X F2 t2 l2 source debug quote writes [] O2 Hf2) as (P2 & D2 & q2 & Q2 & X2). rewrite R2 in Q2. injection Q2 as <-.
  pose proof (shown_pos _ _ _ _ O1) as N1. pose proof (shown_pos _ _ _ _ O2) as N2. rewrite D1, D2, X1, X2, P1, P2. split; [|split].
  - intros Hd. rewrite <- (debug_read T F1 F2 _ _ debug E1 E2 Hd N1 N2). split; intros; congruence.
  - intros Hd. symmetry. apply (pretty_read T F1 F2 _ _ _ E1 E2 Hd N1 N2).
  - intros Hd Hs Hq Hp. cbn [app]. destruct (shown_flow T t1 l1) as (z1 & G1). destruct (shown_flow T t2 l2) as (z2 & G2). split.
    + intros E. unfold lines_text. rewrite (lines_same T X source debug quote _ _ _ _ G1 G2 E). auto.
    + intros E. injection E as E. revert E. unfold lines_text. apply (PropsText.lines_read debug quote); auto; [intros d [r Hr]; eapply Hs; eauto|intros x [r Hr]; eapply Hp; eauto].
Qed.
Print Assumptions C75_equal.

(** ** The depth can be more than the nesting: with a misused checkpoint [print] can indent a root as if it were a child. *)
Definition indented_ops : list (op nat) :=
  [OOpen 0; OCheckpoint; OToken 1 1; OCheckpoint; OCloseAt 0 10; OCloseAt 0 11; OCloseAt 1 12; OToken 2 1; OClose; OToken 3 1].
Definition indented_tree : tree nat := tree_so_far flavor_default indented_ops.
Definition indented_doc : list (rose nat) := match read 20 indented_tree (tree_first indented_tree) with Some l => l | None => [] end.
Lemma indented_obtained : obtained flavor_default indented_tree indented_doc.
Proof.
  apply (ob_built flavor_default indented_ops).
  - split; auto.
  - repeat constructor; simpl; try lia; vm_compute; discriminate.
  - vm_compute. reflexivity.
  - apply (read_reads _ 20). vm_compute. reflexivity.
Qed.
Definition number (n : nat) : list N := decimal (N.of_nat n).
Theorem C75_depths_refuted : exists x, In x indented_doc /\ In (1%Z, x) (shown indented_tree indented_doc) /\ obtained flavor_default indented_tree indented_doc /\ fits flavor_default indented_tree /\
  print_to flavor_default indented_tree (fun _ => @None nat) number number None vec_write_all [] =
    (lines ["0@0..2"; "  11@0..1"; "    12@0..1"; "      10@0..1"; "        1@0..1 +"; "    2@1..2 +"; "  3@2..3 +"]%string, Printed).
Proof.
  exists (nth 1 indented_doc (Nd 0 KLeaf 0 (Span 0 0) [])). split; [vm_compute; auto|]. split; [vm_compute; auto 10|]. split; [apply indented_obtained|]. split; [vm_compute; reflexivity|]. vm_compute. reflexivity.
Qed.
Print Assumptions C75_depths_refuted.

(** The hypotheses of C75_equal are met: the tree of above, and another one, built as intended, in which that root is a child.  The two are equal, so all
    their texts are the same. *)
Definition nested_ops : list (op nat) :=
  [OCheckpoint; OTokenWith 1 (Span 0 1); OCloseAtWith 0 10 (Span 0 1); OCloseAtWith 0 12 (Span 0 1); OTokenWith 2 (Span 1 2); OCloseAtWith 0 11 (Span 0 1);
   OTokenWith 3 (Span 2 3); OCloseAtWith 0 0 (Span 0 2)].
Definition nested_tree : tree nat := tree_so_far flavor_default nested_ops.
Definition nested_doc : list (rose nat) := match read 20 nested_tree (tree_first nested_tree) with Some l => l | None => [] end.
Example C75_inhabited : obtained flavor_default indented_tree indented_doc /\ obtained flavor_default nested_tree nested_doc /\
  fits flavor_default indented_tree /\ fits flavor_default nested_tree /\ (forall a b, Nat.eqb a b = true <-> a = b) /\ told_by 44 number /\ told_by 64 number /\
  (forall d r, number d <> 32%N :: r) /\ length indented_doc = 2 /\ length nested_doc = 1 /\
  tree_eq flavor_default flavor_default Nat.eqb indented_tree nested_tree = Ok true.
Proof.
  assert (I1 : forall a b, number a = number b -> a = b) by (intros a b E; apply decimal_inj in E; lia).
  assert (D : forall c n, ~ digit c -> ~ In c (number n)). { intros c n Hc Hin. pose proof (decimal_digits (N.of_nat n)) as G. rewrite Forall_forall in G. apply Hc, G; auto. }
  split; [apply indented_obtained|]. split; [|split; [vm_compute; reflexivity|]; split; [vm_compute; reflexivity|]; split; [apply Nat.eqb_eq|]; split; [|split; [|split; [|split; [|split]]]]].
  - apply (ob_built flavor_default nested_ops).
    + split; auto.
    + repeat constructor; simpl; try lia; vm_compute; discriminate.
    + vm_compute. reflexivity.
    + apply (read_reads _ 20). vm_compute. reflexivity.
  - apply free_told; auto. intros a. apply D. unfold digit. lia.
  - apply free_told; auto. intros a. apply D. unfold digit. lia.
  - intros d r E. apply (D 32%N d); [unfold digit; lia|]. rewrite E. simpl; auto.
  - reflexivity.
  - reflexivity.
  - vm_compute. reflexivity.
Qed.
