(** C54: the text that [print], [Debug] and [Display] give. *)
From Coq Require Import Strings.String Lia ZArith List.
Import ListNotations.
From Verif Require Import Base Pointer Index Tree Builder Hist Node Iter Print Render Edit Spec SpecEq SpecEdit SpecProgram SpecText
  Rep Refine TreeRep Enum WalkThms Demo PropsTree PropsFused PropsMacro PropsProgram PropsWith PropsDebug.

(** ** Numbers *)

Lemma digits_says fuel : forall n acc, (n < 2 ^ N.of_nat fuel)%N ->
  exists s, digits (S fuel) n acc = s ++ acc /\ numeral n s.
Proof.
  induction fuel as [|fuel IH]; intros n acc Hn.
  - assert (n = 0)%N as -> by (simpl in Hn; lia). exists [48%N]. split; auto.
    split; auto. split; [discriminate|]. split; [constructor; [lia|constructor]|]. intros; discriminate.
  - rewrite Nat2N.inj_succ, N.pow_succ_r' in Hn.
    assert (Hm : (n mod 10 < 10)%N) by (apply N.mod_upper_bound; lia).
    assert (Hd : n = (10 * (n / 10) + n mod 10)%N) by (apply N.div_mod; lia).
    change (digits (S (S fuel)) n acc) with
      (if (n <? 10)%N then (48 + n mod 10)%N :: acc else digits (S fuel) (n / 10)%N ((48 + n mod 10)%N :: acc)).
    destruct (N.ltb_spec n 10).
    + exists [(48 + n mod 10)%N]. split; auto. rewrite N.mod_small by auto. split; [unfold says; cbn [fold_left]; lia|].
      split; [discriminate|]. split; [constructor; [lia|constructor]|]. intros; discriminate.
    + destruct (IH (n / 10)%N ((48 + n mod 10)%N :: acc)) as (s & -> & E1 & E2 & E3 & E4).
      { apply N.div_lt_upper_bound; lia. }
      exists (s ++ [(48 + n mod 10)%N]). split; [rewrite <- app_assoc; auto|]. split; [|split; [|split]].
      * unfold says in *. rewrite fold_left_app, E1. cbn [fold_left]. clear - Hd. generalize dependent (n / 10)%N. generalize (n mod 10)%N. intros; lia.
      * destruct s; discriminate.
      * apply Forall_app. split; auto. constructor; [clear - Hm; revert Hm; generalize (n mod 10)%N; intros; lia|constructor].
      * intros c r E. destruct s as [|x [|y s]]; [congruence| |].
        -- injection E as -> _. unfold says in E1. cbn [fold_left] in E1.
           assert (1 <= n / 10)%N by (apply N.div_le_lower_bound; lia). lia.
        -- injection E as -> _ _. eapply E4; eauto.
Qed.

Lemma says_app s c : says (s ++ [c]) = (10 * says s + (c - 48))%N.
Proof. unfold says. rewrite fold_left_app. auto. Qed.

(** The number in decimal notation; there is one way to write it. *)
Theorem C54_numbers : forall n s, numeral n s <-> s = decimal n.
Proof.
  assert (E : forall n, numeral n (decimal n)).
  { intros n. unfold decimal. destruct (digits_says (N.size_nat n) n []) as (s & -> & H).
    - destruct n as [|p]; [simpl; lia|]. clear. induction p; cbn [N.size_nat Pos.size_nat] in *; try (rewrite Nat2N.inj_succ, N.pow_succ_r'; lia).
    - rewrite app_nil_r. auto. }
  assert (U : forall s n s', numeral n s -> numeral n s' -> s = s').
  { induction s as [|c s IH] using rev_ind; intros n s' (A1 & A2 & A3 & A4) (B1 & B2 & B3 & B4); [congruence|].
    destruct s' as [|c' s' _] using rev_ind; [congruence|].
    rewrite says_app in A1, B1. apply Forall_app in A3 as [A3 A5]. apply Forall_app in B3 as [B3 B5].
    inversion A5 as [|? ? A6 _]; inversion B5 as [|? ? B6 _]; subst.
    assert (c = c' /\ says s = says s') as [-> Es] by lia.
    f_equal. clear A2 B2 A5 B5 A6 B6 B1.
    assert (Z0 : forall s, Forall (fun c => 48 <= c <= 57)%N s -> (forall c r, s ++ [c'] = 48%N :: c :: r -> False) -> says s = 0%N -> s = []).
    { clear. intros s Hs Hz H0. destruct s as [|x s]; auto. exfalso.
      assert (x = 48%N) as ->.
      { revert x H0 Hs Hz. induction s as [|y s IH] using rev_ind; intros x H0 Hs Hz.
        - unfold says in H0. cbn [fold_left] in H0. inversion Hs; subst. lia.
        - change (says ((x :: s) ++ [y]) = 0%N) in H0. rewrite says_app in H0. apply (IH x); [lia| |].
          + change (x :: s ++ [y]) with ((x :: s) ++ [y]) in Hs. apply Forall_app in Hs. tauto.
          + intros c r Ec. destruct s as [|z s]; simpl in Ec; injection Ec; intros; subst; eapply Hz; simpl; eauto. }
      destruct s; eapply Hz; simpl; eauto. }
    destruct (N.eq_dec (says s) 0) as [Z|Z].
    - rewrite (Z0 s A3 A4 Z), (Z0 s' B3 B4); auto; lia.
    - apply (IH (says s)).
      + split; auto. split; [intros ->; apply Z; auto|]. split; auto. intros c r ->. eapply A4. simpl. eauto.
      + split; auto. split; [intros ->; apply Z; rewrite Es; auto|]. split; auto. intros c r ->. eapply B4. simpl. eauto. }
  intros n s. split; [intros H; eapply U; eauto|intros ->; auto].
Qed.
Print Assumptions C54_numbers.

(** ** [print] *)

Lemma finished_shows T F (ops : list (op T)) t l : finished F ops t l -> shows F t l.
Proof.
  intros H. split; [|apply (C21_depths T F ops t l H)].
  unfold tree_len. rewrite (tr_length _ _ (fin_rep F ops t l H)). auto.
Qed.
Lemma presents_shows T F (t : tree T) l : presents F t l -> shows F t l.
Proof. intros (H & G & _). split; auto. Qed.

(** What a built tree shows, and what a modified one shows. *)
Theorem C54_shows : forall T F (t : tree T) l, (exists ops, finished F ops t l) \/ presents F t l -> shows F t l.
Proof. intros T F t l [[ops H]|H]; [eapply finished_shows; eauto|apply presents_shows; auto]. Qed.
Print Assumptions C54_shows.

Lemma cons_both {A} (x y : A) a b : x :: a = y :: b -> x = y /\ a = b.
Proof. intros E; split; congruence. Qed.

Section Print.
Context {T X W : Type} (F : flavor) (source : span -> option X) (debug : T -> bytes) (quote : X -> bytes) (limit : option N)
  (write_all : W -> bytes -> W * bool).

Lemma concat_repeat {A} (a : A) n : concat (repeat [a] n) = repeat a n.
Proof. induction n; simpl; congruence. Qed.

Lemma line_writes_text (x : Z * node T) (y : Z * rose T) : (0 <= fst y)%Z ->
  (fst x, view (snd x)) = (fst y, rview (snd y)) ->
  ln_indent (print_line source x) = (2 * fst y)%Z /\
  concat (line_writes debug quote (print_line source x)) = line_text source debug quote y.
Proof.
  destruct x as [k n], y as [j [i kd d sp kids]]. cbn [fst snd print_line ln_indent]. intros Hj E. injection E as -> _ Ed Es Eh. split; [lia|].
  unfold line_writes, line_text. rewrite concat_app. cbn [ln_indent ln_value ln_span ln_tail]. rewrite Ed, Es, Eh.
  replace (lit_bytes " ") with [32%N] by reflexivity. rewrite concat_repeat. replace (Z.to_nat (j * 2)) with (2 * Z.to_nat j) by lia.
  unfold has_kids. simpl. destruct kids; [destruct (source sp)|]; simpl; rewrite ?app_nil_r, <- ?app_assoc; auto.
Qed.

Lemma write_pieces_app ps qs : forall w, write_pieces write_all w (ps ++ qs) =
  match write_pieces write_all w ps with (w, true) => write_pieces write_all w qs | (w, false) => (w, false) end.
Proof. induction ps as [|p ps IH]; intros w; simpl; auto. destruct (write_all w p) as [w' []]; auto. Qed.

Lemma depths_pos : forall (l : list (rose T)) k, (0 <= k)%Z -> Forall (fun y => (0 <= fst y)%Z) (flat_map (preorder_depth k) l).
Proof.
  assert (G : forall (x : rose T) k, (0 <= k)%Z -> Forall (fun y => (0 <= fst y)%Z) (preorder_depth k x)).
  { induction x as [i kd d sp kids IH] using rose_ind'. intros k Hk. simpl. constructor; auto.
    clear -IH Hk. induction IH; simpl; auto. apply Forall_app. split; auto. apply H. lia. }
  induction l; intros k Hk; simpl; auto. apply Forall_app. split; auto.
Qed.

Lemma print_loop_exact ns : forall items st fuel (ys : list (Z * rose T)) w,
  enumerates (walk_depths_next F ns) st items -> length items < fuel ->
  map (fun i => (fst i, view (snd i))) items = map (fun i => (fst i, rview (snd i))) ys ->
  Forall (fun y => (0 <= fst y)%Z) ys ->
  exists pieces, concat pieces = concat (map (line_text source debug quote) (shallow limit ys)) /\
    print_loop fuel F ns source debug quote limit write_all st w =
    (let '(w', ok) := write_pieces write_all w pieces in
     (w', if ok then if length (shallow limit ys) =? length ys then Printed else WidthPanic else WriteFailed)).
Proof.
  induction items as [|x items IH]; intros st fuel ys w En Hf V P; destruct fuel as [|fuel]; try (simpl in Hf; lia).
  - destruct ys; [|discriminate]. apply enumerates_nil in En as (s1 & E & _). exists []. simpl. rewrite E. auto.
  - destruct ys as [|y ys]; [discriminate|]. apply enumerates_cons in En as (s1 & E & En).
    cbn [map] in V. apply cons_both in V as [V1 V]. inversion P as [|? ? P1 P2]; subst.
    destruct (line_writes_text x y P1 V1) as [Hi Ht].
    cbn [print_loop]. rewrite E. cbv zeta. rewrite Hi.
    assert (Hs : shallow limit (y :: ys) = if width_ok limit (2 * fst y) then y :: shallow limit ys else []).
    { simpl. destruct limit; auto. }
    rewrite Hs. destruct (width_ok limit (2 * fst y)); [|exists []; simpl; auto].
    destruct (write_pieces write_all w (line_writes debug quote (print_line source x))) as [w' ok] eqn:Ew.
    destruct (IH s1 fuel ys w' En ltac:(simpl in Hf; lia) V P2) as (ps & E1 & E2).
    exists (line_writes debug quote (print_line source x) ++ ps). split.
    + rewrite concat_app, Ht, E1. auto.
    + rewrite write_pieces_app, Ew. destruct ok; auto.
Qed.
End Print.

(** Into any sink: the lines of the document go to the sink piece by piece until it refuses one, or until
    the indentation is beyond the toolchain's limit; otherwise [print] returns [Ok]. *)
Theorem C54_print : forall T X W F (t : tree T) l (source : span -> option X) debug quote limit
  (write_all : W -> list N -> W * bool) w, shows F t l ->
  exists pieces, concat pieces = concat (map (line_text source debug quote) (shallow limit (flat_map (preorder_depth 0) l))) /\
    print_to F t source debug quote limit write_all w =
    (let '(w', accepted) := write_pieces write_all w pieces in
     (w', if accepted then if length (shallow limit (flat_map (preorder_depth 0) l)) =? length (preorder_list l) then Printed else WidthPanic
          else WriteFailed)).
Proof.
  intros T X W F t l source debug quote limit write_all w (Hl & items & En & V).
  rewrite <- preorder_depth_len. apply (print_loop_exact F source debug quote limit write_all (t_nodes t) items); auto.
  - unfold tree_len in *. rewrite Hl, <- preorder_depth_len, <- (map_length (fun i => (fst i, rview (snd i)))), <- V, map_length. auto.
  - apply depths_pos. lia.
Qed.
Print Assumptions C54_print.

Lemma vec_pieces : forall ps w, write_pieces vec_write_all w ps = (w ++ concat ps, true).
Proof. induction ps as [|p ps IH]; intros w; simpl; [rewrite app_nil_r; auto|]. rewrite IH, app_assoc. auto. Qed.

Lemma slice_pieces : forall ps done room, write_pieces slice_write_all (done, room) ps =
  (done ++ firstn room (concat ps), room - length (concat ps), length (concat ps) <=? room) \/
  (exists k, write_pieces slice_write_all (done, room) ps = (done ++ firstn room (concat ps), k, false) /\ room < length (concat ps) /\ k = 0).
Proof.
  induction ps as [|p ps IH]; intros done room.
  - left. simpl. rewrite firstn_nil, app_nil_r, Nat.sub_0_r. auto.
  - cbn [write_pieces slice_write_all concat]. destruct (Nat.leb_spec (length p) room).
    + destruct (IH (done ++ firstn room p) (room - length p)) as [E|(k & E & Hk & ->)]; rewrite E;
        rewrite firstn_app, app_assoc, !app_length.
      * left. f_equal; [f_equal; lia|]. destruct (Nat.leb_spec (length (concat ps)) (room - length p)), (Nat.leb_spec (length p + length (concat ps)) room); auto; lia.
      * right. exists 0. split; auto. lia.
    + right. exists 0. rewrite app_length, firstn_app. replace (room - length p) with 0 by lia. simpl. rewrite app_nil_r. split; [auto|]. lia.
Qed.

Lemma shallow_none {T} (l : list (Z * rose T)) : shallow None l = l.
Proof. induction l; simpl; congruence. Qed.
Lemma shallow_all {T} m (l : list (Z * rose T)) : Forall (fun x => 2 * fst x <= Z.of_N m)%Z l -> shallow (Some m) l = l.
Proof. induction 1 as [|x l H _ IH]; cbn [shallow]; auto. apply Z.leb_le in H. rewrite H, IH. auto. Qed.

(** Into a vector: exactly the text of the document, unless a node is nested too deeply; then the text
    of the nodes before it. *)
Theorem C54_text : forall T X F (t : tree T) l (source : span -> option X) debug quote limit w, shows F t l ->
  ((forall m, limit = Some m -> Forall (fun x => 2 * fst x <= Z.of_N m)%Z (flat_map (preorder_depth 0) l)) ->
   print_to F t source debug quote limit vec_write_all w = (w ++ doc_text source debug quote l, Printed)) /\
  (forall m before depth x after, limit = Some m -> flat_map (preorder_depth 0) l = before ++ (depth, x) :: after ->
   Forall (fun y => 2 * fst y <= Z.of_N m)%Z before -> (Z.of_N m < 2 * depth)%Z ->
   print_to F t source debug quote limit vec_write_all w =
     (w ++ concat (map (line_text source debug quote) before), WidthPanic)).
Proof.
  intros T X F t l source debug quote limit w H.
  destruct (C54_print T X _ F t l source debug quote limit vec_write_all w H) as (ps & Ep & E).
  rewrite E, vec_pieces, Ep. split.
  - intros Hl. assert (shallow limit (flat_map (preorder_depth 0) l) = flat_map (preorder_depth 0) l) as ->.
    { destruct limit; [apply shallow_all; auto|apply shallow_none]. }
    rewrite preorder_depth_len, Nat.eqb_refl. auto.
  - intros m before depth x after -> El Hb Hd. rewrite El.
    assert (shallow (Some m) (before ++ (depth, x) :: after) = before) as ->.
    { clear -Hb Hd. induction Hb as [|y b Hy _ IH]; cbn [shallow app].
      - apply Z.leb_gt in Hd. cbn [fst]. rewrite Hd. auto.
      - apply Z.leb_le in Hy. rewrite Hy, IH. auto. }
    rewrite <- preorder_depth_len, El, app_length. simpl.
    assert (length before =? length before + S (length after) = false) as -> by (apply Nat.eqb_neq; lia). auto.
Qed.
Print Assumptions C54_text.

(** Into a buffer with room for [n] bytes: the first [n] bytes of the text, and an error exactly when
    there are more. *)
Theorem C54_buffer : forall T X F (t : tree T) l (source : span -> option X) debug quote n, shows F t l ->
  exists room, print_to F t source debug quote None slice_write_all ([], n) =
    (firstn n (doc_text source debug quote l), room,
     if length (doc_text source debug quote l) <=? n then Printed else WriteFailed).
Proof.
  intros T X F t l source debug quote n H.
  destruct (C54_print T X _ F t l source debug quote None slice_write_all ([], n) H) as (ps & Ep & E).
  rewrite shallow_none in Ep, E. rewrite preorder_depth_len, Nat.eqb_refl in E. fold (doc_text source debug quote l) in Ep.
  rewrite E, <- Ep. destruct (slice_pieces ps [] n) as [G|(k & G & Hk & ->)]; rewrite G; simpl.
  - eexists. destruct (_ <=? n); eauto.
  - exists 0. assert (length (concat ps) <=? n = false) as -> by (apply Nat.leb_gt; lia). auto.
Qed.
Print Assumptions C54_buffer.

(** ** Reading the text back *)

Definition starts_with (c : N) (s : bytes) : Prop := exists r, s = c :: r.

Lemma spaces_stop a : forall b u v, ~ starts_with 32 u -> ~ starts_with 32 v ->
  repeat 32%N a ++ u = repeat 32%N b ++ v -> a = b /\ u = v.
Proof.
  induction a as [|a IH]; intros [|b] u v Hu Hv E; simpl in E; auto.
  - exfalso. apply Hu. exists (repeat 32%N b ++ v). auto.
  - exfalso. apply Hv. exists (repeat 32%N a ++ u). auto.
  - injection E as E. destruct (IH b u v Hu Hv E). auto.
Qed.

Lemma decimal_digits n : Forall (fun c => 48 <= c <= 57)%N (decimal n).
Proof. apply (C54_numbers n (decimal n)). auto. Qed.
Lemma decimal_nonempty n : decimal n <> [].
Proof. apply (C54_numbers n (decimal n)). auto. Qed.
Lemma decimal_inj n m : decimal n = decimal m -> n = m.
Proof.
  intros E. pose proof (proj2 (C54_numbers n _) eq_refl) as (H & _). pose proof (proj2 (C54_numbers m _) eq_refl) as (G & _). congruence.
Qed.

Definition digit (c : N) : Prop := (48 <= c <= 57)%N.
Lemma digits_stop s : forall s' c c' r r', Forall digit s -> Forall digit s' -> ~ digit c -> ~ digit c' ->
  s ++ c :: r = s' ++ c' :: r' -> s = s' /\ c = c' /\ r = r'.
Proof.
  induction s as [|x s IH]; intros [|y s'] c c' r r' H H' Hc Hc' E; simpl in E; injection E; intros; subst.
  - auto.
  - inversion H'; tauto.
  - inversion H; tauto.
  - inversion H; inversion H'; subst. destruct (IH s' c c' r r') as (-> & -> & ->); auto.
Qed.
Lemma decimal_stop n m c c' r r' : ~ digit c -> ~ digit c' -> decimal n ++ c :: r = decimal m ++ c' :: r' -> n = m /\ c = c' /\ r = r'.
Proof.
  intros Hc Hc' E. apply digits_stop in E as (E & -> & ->); auto; try apply decimal_digits. apply decimal_inj in E. auto.
Qed.

Lemma line_nonempty T X (source : span -> option X) (debug : T -> bytes) quote x r : line_text source debug quote x ++ r <> [].
Proof.
  destruct x as [k [i kd d sp kids]]. unfold line_text. intros E. apply (f_equal (@length N)) in E. revert E.
  rewrite !app_length. simpl. lia.
Qed.

(** The line in bytes. *)
Definition ending_bytes {T X} (source : span -> option X) (quote : X -> bytes) (x : rose T) : bytes :=
  match r_kids x with
  | [] => match source (r_span x) with Some s => 32%N :: quote s ++ [10%N] | None => [32; 43; 10]%N end
  | _ => [10%N]
  end.
Lemma line_shape T X (source : span -> option X) (debug : T -> bytes) quote k x :
  line_text source debug quote (k, x) =
  repeat 32%N (2 * Z.to_nat k) ++ debug (r_data x) ++ 64%N :: decimal (s_start (r_span x)) ++ 46%N :: 46%N :: decimal (s_end (r_span x)) ++ ending_bytes source quote x.
Proof.
  destruct x as [i kd d sp kids]. unfold line_text, ending_bytes. cbn [r_data r_span r_kids].
  destruct kids; [destruct (source sp)|]; reflexivity.
Qed.

Lemma not_digit_32 : ~ digit 32. Proof. unfold digit. lia. Qed.
Lemma not_digit_10 : ~ digit 10. Proof. unfold digit. lia. Qed.
Lemma not_digit_46 : ~ digit 46. Proof. unfold digit. lia. Qed.
Lemma not_digit_44 : ~ digit 44. Proof. unfold digit. lia. Qed.
Lemma not_digit_41 : ~ digit 41. Proof. unfold digit. lia. Qed.
#[local] Hint Resolve not_digit_32 not_digit_10 not_digit_46 not_digit_44 not_digit_41 : core.

Section Read.
Context {T X : Type} (debug : T -> bytes) (quote : X -> bytes).
Hypothesis Hs : forall d, ~ starts_with 32 (debug d).

Lemma value_start d c r : c <> 32%N -> ~ starts_with 32 (debug d ++ c :: r).
Proof. intros Hc [z Hz]. destruct (debug d) as [|y u] eqn:Ed; simpl in Hz; injection Hz; intros; [congruence|]. subst. apply (Hs d). exists u. auto. Qed.

Hypothesis Hd : told_by 64 debug.
Hypothesis Hq : told_by 10 quote.
Hypothesis Hp : forall x, ~ starts_with 43 (quote x).

Lemma ending_read (source source' : span -> option X) (x y : rose T) b b' r r' :
  decimal b ++ ending_bytes source quote x ++ r = decimal b' ++ ending_bytes source' quote y ++ r' -> b = b' /\ r = r'.
Proof.
  unfold ending_bytes.
  destruct (r_kids x), (r_kids y); try destruct (source (r_span x)); try destruct (source' (r_span y)); cbn [app]; rewrite <- ?app_assoc; cbn [app];
    intros E; apply decimal_stop in E as (E1 & E2 & E3); auto; try discriminate; split; auto.
  - pose proof (Hq _ _ _ _ E3). subst. apply app_inv_head in E3. injection E3. auto.
  - exfalso. destruct (quote x0) eqn:Eq; simpl in E3; [discriminate|]. apply (Hp x0). injection E3 as -> _. exists l. auto.
  - exfalso. destruct (quote x0) eqn:Eq; simpl in E3; [discriminate|]. apply (Hp x0). injection E3 as -> _. exists l. auto.
  - injection E3. auto.
Qed.

Lemma line_read (source source' : span -> option X) x y r r' : (0 <= fst x)%Z -> (0 <= fst y)%Z ->
  line_text source debug quote x ++ r = line_text source' debug quote y ++ r' ->
  (fst x, (r_data (snd x), r_span (snd x))) = (fst y, (r_data (snd y), r_span (snd y))) /\ r = r'.
Proof.
  destruct x as [k x], y as [k' y]. cbn [fst snd]. intros Hk Hk' E. rewrite !line_shape, <- !app_assoc in E.
  apply spaces_stop in E as [E1 E].
  2, 3: rewrite <- app_comm_cons; apply value_start; discriminate.
  rewrite <- !app_comm_cons in E. pose proof (Hd _ _ _ _ E) as Ed. rewrite Ed in E. apply app_inv_head in E. apply cons_both in E as [_ E].
  rewrite <- !app_assoc, <- !app_comm_cons in E. apply decimal_stop in E as (Ea & _ & E); auto.
  apply cons_both in E as [_ E]. rewrite <- !app_assoc in E. apply ending_read in E as [Eb ->].
  split; auto. f_equal; [lia|]. f_equal; auto. destruct (r_span x), (r_span y); simpl in *; congruence.
Qed.

Lemma lines_read (source source' : span -> option X) : forall xs ys, Forall (fun y => (0 <= fst y)%Z) xs -> Forall (fun y => (0 <= fst y)%Z) ys ->
  concat (map (line_text source debug quote) xs) = concat (map (line_text source' debug quote) ys) ->
  map (fun i : Z * rose T => (fst i, (r_data (snd i), r_span (snd i)))) xs = map (fun i => (fst i, (r_data (snd i), r_span (snd i)))) ys.
Proof.
  induction xs as [|x xs IH]; intros [|y ys] P1 P2 E; auto.
  - exfalso. symmetry in E. simpl in E. apply line_nonempty in E. auto.
  - exfalso. simpl in E. apply line_nonempty in E. auto.
  - inversion P1; inversion P2; subst. simpl in E. apply line_read in E as [E1 E]; auto. cbn [map]. rewrite E1. f_equal. auto.
Qed.
End Read.

Lemma text_same T X (source : span -> option X) (debug : T -> bytes) quote : forall (l1 l2 : list (rose T)) k, map erase l1 = map erase l2 ->
  map (line_text source debug quote) (flat_map (preorder_depth k) l1) = map (line_text source debug quote) (flat_map (preorder_depth k) l2).
Proof.
  assert (G : forall (x y : rose T) k, erase x = erase y ->
    map (line_text source debug quote) (preorder_depth k x) = map (line_text source debug quote) (preorder_depth k y)).
  { induction x as [i kd d sp kids IH] using rose_ind'. intros [i' kd' d' sp' kids'] k E. simpl in E. injection E as -> -> E.
    cbn [preorder_depth map]. f_equal.
    - unfold line_text. destruct kids, kids'; auto; discriminate.
    - revert kids' E. induction IH as [|x xs H _ IH]; intros [|y ys] E; try discriminate; auto.
      simpl in E. injection E as E1 E2. simpl. rewrite !map_app. f_equal; auto. }
  induction l1 as [|x l1 IH]; intros [|y l2] k E; try discriminate; auto.
  simpl in E. injection E as E1 E2. simpl. rewrite !map_app. f_equal; auto.
Qed.

Lemma text_printed T X F (t : tree T) l (source : span -> option X) debug quote : shows F t l ->
  print_to F t source debug quote None vec_write_all [] = (doc_text source debug quote l, Printed).
Proof. intros H. apply (C54_text T X F t l source debug quote None []); auto. discriminate. Qed.

(** The text with the source shown determines the document: values whose texts can be told apart once an
    at-sign follows and do not start with a space; quoted strings that a newline ends and that do not
    start with a plus. *)
Theorem C54_readable : forall T X F1 F2 (t1 t2 : tree T) l1 l2 (source : span -> option X) debug quote,
  shows F1 t1 l1 -> shows F2 t2 l2 ->
  told_by 64 debug -> (forall d r, debug d <> 32%N :: r) -> told_by 10 quote -> (forall x r, quote x <> 43%N :: r) ->
  (print_to F1 t1 source debug quote None vec_write_all [] = print_to F2 t2 source debug quote None vec_write_all [] <->
   map erase l1 = map erase l2).
Proof.
  intros T X F1 F2 t1 t2 l1 l2 source debug quote H1 H2 Hd Hs Hq Hp. rewrite !(text_printed _ _ _ _ _ _ _ _ H1), !(text_printed _ _ _ _ _ _ _ _ H2).
  split.
  - intros E. injection E as E. apply depths_erase. eapply lines_read; eauto using depths_pos.
    + intros d [r Hr]. eapply Hs; eauto.
    + intros x [r Hr]. eapply Hp; eauto.
    + apply depths_pos. lia.
    + apply depths_pos. lia.
  - intros E. unfold doc_text. rewrite (text_same T X source debug quote l1 l2 0 E). auto.
Qed.
Print Assumptions C54_readable.

(** The text without a source determines the document whenever no value's text has a newline or starts
    with a space: it may have at-signs, dots and digits. *)
Lemma last_at : forall a b r r' : bytes, ~ In 64%N r -> ~ In 64%N r' -> a ++ 64%N :: r = b ++ 64%N :: r' -> a = b /\ r = r'.
Proof.
  induction a as [|x a IH]; intros [|y b] r r' Hr Hr' E; simpl in E; injection E; intros; subst; auto.
  - exfalso. apply Hr. apply in_app_iff. simpl. auto.
  - exfalso. apply Hr'. apply in_app_iff. simpl. auto.
  - destruct (IH b r r') as [-> ->]; auto.
Qed.
Lemma first_newline : forall a b r r' : bytes, ~ In 10%N a -> ~ In 10%N b -> a ++ 10%N :: r = b ++ 10%N :: r' -> a = b /\ r = r'.
Proof.
  induction a as [|x a IH]; intros [|y b] r r' Ha Hb E; simpl in E; injection E; intros; subst; auto.
  - exfalso. apply Hb. simpl. auto.
  - exfalso. apply Ha. simpl. auto.
  - destruct (IH b r r') as [-> ->]; auto; intros G; [apply Ha|apply Hb]; simpl; auto.
Qed.

Theorem C54_plain_readable : forall T X F1 F2 (t1 t2 : tree T) l1 l2 debug (quote : X -> list N),
  shows F1 t1 l1 -> shows F2 t2 l2 ->
  (forall a b, debug a = debug b -> a = b) -> (forall d, ~ In 10%N (debug d)) -> (forall d r, debug d <> 32%N :: r) ->
  (print_to F1 t1 (fun _ => None) debug quote None vec_write_all [] = print_to F2 t2 (fun _ => None) debug quote None vec_write_all [] <->
   map erase l1 = map erase l2).
Proof.
  intros T X F1 F2 t1 t2 l1 l2 debug quote H1 H2 Hi Hn Hs. rewrite !(text_printed _ _ _ _ _ _ _ _ H1), !(text_printed _ _ _ _ _ _ _ _ H2).
  split; [|intros E; unfold doc_text; rewrite (text_same T X (fun _ => None) debug quote l1 l2 0 E); auto].
  intros E. injection E as E. apply depths_erase. revert E. unfold doc_text.
  assert (P1 : Forall (fun y => (0 <= fst y)%Z) (flat_map (preorder_depth 0) l1)) by (apply depths_pos; lia).
  assert (P2 : Forall (fun y => (0 <= fst y)%Z) (flat_map (preorder_depth 0) l2)) by (apply depths_pos; lia).
  revert P1 P2. generalize (flat_map (preorder_depth 0) l1) (flat_map (preorder_depth 0) l2). clear - Hi Hn Hs.
  set (mark := fun x : rose T => match r_kids x with [] => [32; 43]%N | _ => [] end).
  assert (Sh : forall k x, line_text (fun _ => None) debug quote (k, x) =
     ((repeat 32%N (2 * Z.to_nat k) ++ debug (r_data x)) ++ 64%N :: decimal (s_start (r_span x)) ++ 46%N :: 46%N :: decimal (s_end (r_span x)) ++ mark x) ++ [10%N]).
  { intros k x. rewrite line_shape. unfold mark, ending_bytes. rewrite <- !app_assoc. do 2 f_equal. rewrite <- app_comm_cons. f_equal.
    rewrite <- !app_assoc. f_equal. rewrite <- !app_comm_cons. do 2 f_equal. rewrite <- app_assoc. f_equal. destruct (r_kids x); auto. }
  assert (Dn : forall c n, ~ digit c -> ~ In c (decimal n)).
  { intros c n Hc Hin. pose proof (decimal_digits n) as G. rewrite Forall_forall in G. apply Hc, G; auto. }
  assert (Rest : forall c x, ~ digit c -> c <> 46%N -> c <> 32%N -> c <> 43%N -> ~ In c (decimal (s_start (r_span x)) ++ 46%N :: 46%N :: decimal (s_end (r_span x)) ++ mark x)).
  { intros c x C1 C2 C3 C4 G. apply in_app_iff in G as [G|[G|[G|G]]]; try congruence; [eapply Dn; eauto|].
    apply in_app_iff in G as [G|G]; [eapply Dn; eauto|]. unfold mark in G. destruct (r_kids x); simpl in G; intuition congruence. }
  assert (At : ~ digit 64) by (unfold digit; lia).
  induction l as [|[k x] xs IH]; intros [|[k' y] ys] P1 P2 E; auto.
  - exfalso. symmetry in E. cbn [map concat] in E. apply line_nonempty in E. auto.
  - exfalso. cbn [map concat] in E. apply line_nonempty in E. auto.
  - inversion P1 as [|? ? Hk Hks]; inversion P2 as [|? ? Hk' Hks']; subst. cbn [map concat] in E. rewrite !Sh, <- !(app_assoc _ [10%N]) in E.
    cbn [app] in E.
    assert (No : forall k x, ~ In 10%N ((repeat 32%N (2 * Z.to_nat k) ++ debug (r_data x)) ++ 64%N :: decimal (s_start (r_span x)) ++ 46%N :: 46%N :: decimal (s_end (r_span x)) ++ mark x)).
    { intros j z G. apply in_app_iff in G as [G|[G|G]]; [|discriminate|].
      - apply in_app_iff in G as [G|G]; [apply repeat_spec in G; discriminate|eapply Hn; eauto].
      - revert G. apply Rest; auto; discriminate. }
    apply first_newline in E as [E1 E]; auto. apply last_at in E1 as [E2 E3]; try (apply Rest; auto; discriminate).
    apply spaces_stop in E2 as [Ek Ed]; try (intros [r Hr]; eapply Hs; eauto). apply Hi in Ed.
    apply decimal_stop in E3 as (Ea & _ & E3); auto. apply cons_both in E3 as [_ E3].
    assert (Eb : s_end (r_span x) = s_end (r_span y)).
    { assert (G : decimal (s_end (r_span x)) ++ mark x ++ [10%N] = decimal (s_end (r_span y)) ++ mark y ++ [10%N]) by (rewrite !app_assoc; congruence).
      unfold mark in G. destruct (r_kids x), (r_kids y); cbn [app] in G; apply decimal_stop in G as (G & _); auto. }
    cbn [map fst snd] in *. f_equal; [|apply IH; auto]. f_equal; [lia|]. f_equal; auto. destruct (r_span x), (r_span y); simpl in *; congruence.
Qed.
Print Assumptions C54_plain_readable.

(** ** [Debug] *)

Lemma list_debug_cons x (l : list bytes) : list_debug (x :: l) = x ++ concat (map (fun y => lit_bytes ", " ++ y) l).
Proof.
  revert x. induction l as [|y l IH]; intros x; [simpl; rewrite app_nil_r; auto|].
  change (list_debug (x :: y :: l)) with (x ++ lit_bytes ", " ++ list_debug (y :: l)). rewrite IH. cbn [map concat]. rewrite <- !app_assoc. auto.
Qed.

Lemma debug_tree_shows T F (t : tree T) l : shows F t l ->
  debug_tree F t = Ok (map (fun i => (fst i, (r_data (snd i), r_span (snd i)))) (flat_map (preorder_depth 0) l)).
Proof.
  intros (Hl & items & En & V). unfold debug_tree.
  assert (Hi : length items = length (t_nodes t)).
  { unfold tree_len in Hl. rewrite Hl, <- preorder_depth_len, <- (map_length (fun i => (fst i, rview (snd i)))), <- V, map_length. auto. }
  destruct (iter_collect_enumerates _ items (tree_walk t) (S (tree_len t)) En) as (s' & -> & _).
  { unfold tree_len. lia. }
  f_equal. clear -V. revert V. generalize (flat_map (preorder_depth 0) l). clear l.
  induction items as [|[k n] items IH]; intros [|[k' x] l] V; try discriminate; auto.
  simpl in V. injection V as -> _ D S _ V. simpl. rewrite (IH l V). unfold debug_node. rewrite D, S. auto.
Qed.

Lemma signed_pos z : (0 <= z)%Z -> signed z = decimal (Z.to_N z).
Proof. intros H. unfold signed. apply Z.ltb_ge in H. rewrite H. auto. Qed.
Lemma debug_entries T F (t : tree T) (items : list (Z * rose T)) debug : debug_tree F t = Ok (map (fun i => (fst i, (r_data (snd i), r_span (snd i)))) items) ->
  Forall (fun y => (0 <= fst y)%Z) items -> tree_debug F debug t = Ok (entries_text F debug items).
Proof.
  intros H P. unfold tree_debug. rewrite H. f_equal. unfold entries_text. f_equal. f_equal.
  rewrite map_map. clear H.
  assert (E : map (fun x : Z * rose T => entry_debug F debug (fst x, (r_data (snd x), r_span (snd x)))) items = map (entry_text F debug) items).
  { apply map_ext_in. intros [k [i kd d sp kids]] Hin. rewrite Forall_forall in P. pose proof (P _ Hin) as Hk. cbn [fst] in Hk. unfold entry_debug, entry_text, node_debug, span_debug, index_debug. cbn [fst snd r_data r_span]. rewrite signed_pos by auto.
    destruct (fl_index F); cbn [lit_bytes list_ascii_of_string map app]; rewrite <- ?app_assoc; cbn [app]; rewrite <- ?app_assoc; cbn [app];
      rewrite <- ?app_assoc; cbn [app]; rewrite <- ?app_assoc; auto. }
  rewrite E. destruct (map (entry_text F debug) items); auto. apply list_debug_cons.
Qed.
(** [{:?}] of a tree, to the byte. *)
Theorem C54_debug : forall T F (t : tree T) l debug, shows F t l -> tree_debug F debug t = Ok (debug_text F debug l).
Proof. intros T F t l debug H. apply debug_entries; [apply debug_tree_shows; auto|apply depths_pos; lia]. Qed.
Print Assumptions C54_debug.

Section ReadDebug.
Context {T : Type} (F1 F2 : flavor) (debug : T -> bytes).
Hypothesis E1 : fl_index F1 <> IxEmpty.
Hypothesis E2 : fl_index F2 <> IxEmpty.
Hypothesis Hd : told_by 44 debug.

Lemma entry_shape F k (x : rose T) : fl_index F <> IxEmpty -> entry_text F debug (k, x) =
  lit_bytes "(" ++ decimal (Z.to_N k) ++ 44%N :: lit_bytes " Node { data: " ++ debug (r_data x) ++
  44%N :: lit_bytes " span: (" ++ decimal (s_start (r_span x)) ++ 44%N :: lit_bytes " " ++ decimal (s_end (r_span x)) ++ 41%N :: lit_bytes " })".
Proof. intros HE. destruct x as [i kd d sp kids]. unfold entry_text. destruct (fl_index F); try congruence; reflexivity. Qed.

Lemma entry_read x y r r' : (0 <= fst x)%Z -> (0 <= fst y)%Z -> entry_text F1 debug x ++ r = entry_text F2 debug y ++ r' ->
  (fst x, (r_data (snd x), r_span (snd x))) = (fst y, (r_data (snd y), r_span (snd y))) /\ r = r'.
Proof.
  destruct x as [k x], y as [k' y]. cbn [fst snd]. intros Hk Hk' E. rewrite !entry_shape in E by auto.
  rewrite <- !app_assoc in E. apply app_inv_head in E. rewrite <- !app_comm_cons in E. apply decimal_stop in E as (Ek & _ & E); auto.
  rewrite <- !app_assoc in E. apply app_inv_head in E. rewrite <- !app_comm_cons in E.
  pose proof (Hd _ _ _ _ E) as Ed. rewrite Ed in E. apply app_inv_head in E. apply cons_both in E as [_ E].
  rewrite <- !app_assoc in E. apply app_inv_head in E. rewrite <- !app_comm_cons in E. apply decimal_stop in E as (Ea & _ & E); auto.
  rewrite <- !app_assoc in E. apply app_inv_head in E. rewrite <- !app_comm_cons in E. apply decimal_stop in E as (Eb & _ & E); auto.
  apply app_inv_head in E. split; auto. f_equal; [lia|]. f_equal; auto. destruct (r_span x), (r_span y); simpl in *; congruence.
Qed.

Lemma entries_read : forall xs ys, Forall (fun y => (0 <= fst y)%Z) xs -> Forall (fun y => (0 <= fst y)%Z) ys ->
  concat (map (fun y => lit_bytes ", " ++ y) (map (entry_text F1 debug) xs)) ++ lit_bytes "])" =
  concat (map (fun y => lit_bytes ", " ++ y) (map (entry_text F2 debug) ys)) ++ lit_bytes "])" ->
  map (fun i : Z * rose T => (fst i, (r_data (snd i), r_span (snd i)))) xs = map (fun i => (fst i, (r_data (snd i), r_span (snd i)))) ys.
Proof.
  induction xs as [|x xs IH]; intros [|y ys] P1 P2 E; auto; cbn [map concat] in E; try discriminate.
  inversion P1; inversion P2; subst. rewrite <- !app_assoc in E. apply app_inv_head in E.
  apply entry_read in E as [Ex E]; auto. cbn [map]. rewrite Ex. f_equal. auto.
Qed.
End ReadDebug.

Lemma debug_read T F1 F2 (xs ys : list (Z * rose T)) debug : fl_index F1 <> IxEmpty -> fl_index F2 <> IxEmpty -> told_by 44 debug ->
  Forall (fun y => (0 <= fst y)%Z) xs -> Forall (fun y => (0 <= fst y)%Z) ys ->
  (entries_text F1 debug xs = entries_text F2 debug ys <->
   map (fun i => (fst i, (r_data (snd i), r_span (snd i)))) xs = map (fun i => (fst i, (r_data (snd i), r_span (snd i)))) ys).
Proof.
  intros E1 E2 Hd P1 P2. unfold entries_text. split.
  - intros E. injection E as E. destruct xs as [|x xs], ys as [|y ys]; cbn [map app] in E; auto.
    { destruct y as [k [i kd d sp kids]]. discriminate E. } { destruct x as [k [i kd d sp kids]]. discriminate E. }
    inversion P1; inversion P2; subst. rewrite <- !app_assoc in E. apply (entry_read F1 F2 debug E1 E2 Hd) in E as [Ex E]; auto. cbn [map]. rewrite Ex. f_equal.
    apply (entries_read F1 F2 debug E1 E2 Hd); auto.
  - intros E. do 2 f_equal.
    assert (G : map (entry_text F1 debug) xs = map (entry_text F2 debug) ys).
    { clear P1 P2. revert ys E. induction xs as [|[k x] xs IH]; intros [|[k' y] ys] E; try discriminate; auto.
      cbn [map] in E. apply cons_both in E as [Ex E]. cbn [map]. f_equal; [|apply IH; auto]. rewrite !entry_shape by auto. cbn [fst snd] in Ex. congruence. }
    rewrite G. auto.
Qed.
(** ... and it determines the document, for values whose texts can be told apart once a comma follows. *)
Theorem C54_debug_readable : forall T F1 F2 (t1 t2 : tree T) l1 l2 debug, shows F1 t1 l1 -> shows F2 t2 l2 ->
  fl_index F1 <> IxEmpty -> fl_index F2 <> IxEmpty -> told_by 44 debug ->
  (tree_debug F1 debug t1 = tree_debug F2 debug t2 <-> map erase l1 = map erase l2).
Proof.
  intros T F1 F2 t1 t2 l1 l2 debug H1 H2 E1 E2 Hd. rewrite (C54_debug T F1 t1 l1 debug H1), (C54_debug T F2 t2 l2 debug H2).
  rewrite <- depths_erase.
  assert (P1 : Forall (fun y => (0 <= fst y)%Z) (flat_map (preorder_depth 0) l1)) by (apply depths_pos; lia).
  assert (P2 : Forall (fun y => (0 <= fst y)%Z) (flat_map (preorder_depth 0) l2)) by (apply depths_pos; lia).
  assert (Q : Ok (debug_text F1 debug l1) = Ok (debug_text F2 debug l2) <-> entries_text F1 debug (flat_map (preorder_depth 0) l1) = entries_text F2 debug (flat_map (preorder_depth 0) l2)).
  { unfold debug_text. split; intros E; congruence. }
  rewrite Q. apply debug_read; auto.
Qed.
Print Assumptions C54_debug_readable.

(** ** [Display] of errors: an error is known from its text, a storage's own error aside. *)
Theorem C54_errors : forall text e1 e2, e1 <> FlavorError -> e2 <> FlavorError ->
  error_display text e1 = error_display text e2 -> e1 = e2.
Proof.
  intros text e1 e2 H1 H2 E. destruct e1, e2; try congruence; try (exfalso; vm_compute in E; discriminate E).
  unfold error_display in E. apply app_inv_head in E. apply app_inv_tail in E. apply decimal_inj in E. f_equal. lia.
Qed.
Print Assumptions C54_errors.

(** ** Deep nesting.  [print] panics where widths are limited (Rust 1.87 and later): a tree of some
    thousand nested nodes, well within what the crate allows, cannot be printed. *)
Fixpoint nest (n : nat) : prog nat := match n with O => PDone | S n => PNode 0 (nest n) PDone end.

Lemma nest_facts n : scoped false (nest n) /\ sizes (program_trees [] (nest n)) = n /\ widths (program_trees [] (nest n)) = 0%N.
Proof.
  induction n as [|n (H1 & H2 & H3)]; [simpl; auto|]. cbn [nest scoped program_trees app]. split; auto.
  unfold sizes, widths in *. simpl. rewrite H2, H3. split; lia.
Qed.

Lemma nest_depths n : forall c k (l : list (rose nat)), map erase l = lay_list c (program_trees [] (nest n)) ->
  exists xs, flat_map (preorder_depth k) l = xs /\ map fst xs = map (fun i => k + Z.of_nat i)%Z (seq 0 n).
Proof.
  induction n as [|n IH]; intros c k l E.
  - simpl in E. apply map_eq_nil in E. subst. exists []. auto.
  - cbn [nest program_trees app lay_list lay] in E. fold (@lay_list nat) in E.
    destruct l as [|[i kd d sp kids] [|]]; try discriminate. simpl in E. injection E as _ _ E.
    destruct (IH c (k + 1)%Z kids) as (xs & Ex & M).
    { rewrite E. clear. generalize (program_trees [] (nest n)). intros gs. revert c. induction gs; intros c; simpl; congruence. }
    exists ((k, Nd i kd d sp kids) :: xs). split; [simpl; rewrite Ex, app_nil_r; auto|].
    cbn [map fst seq]. f_equal; [lia|]. rewrite M, <- seq_shift, map_map. apply map_ext. intros; lia.
Qed.

Theorem C54_deep_refuted : exists (ops : list (op nat)) t l, finished flavor_default ops t l /\
  forall X (source : span -> option X) debug quote,
    snd (print_to flavor_default t source debug quote (Some 65535%N) vec_write_all []) = WidthPanic /\
    snd (print_to flavor_default t source debug quote None vec_write_all []) = Printed.
Proof.
  assert (G : forall n, (N.of_nat n < 4294967295)%N -> exists (ops : list (op nat)) t l, finished flavor_default ops t l /\
     map fst (flat_map (preorder_depth 0) l) = map (fun i => 0 + Z.of_nat i)%Z (seq 0 n)).
  { intros n Hn. destruct (nest_facts n) as (H1 & H2 & H3).
    assert (HF : vec_flavor flavor_default) by (split; vm_compute; auto).
    destruct (C48_structured nat flavor_default (nest n) HF ltac:(vm_compute; discriminate) H1) as [[E|(t & l & _ & B & D & S & L)] R].
    { exfalso. apply R; auto; [rewrite H2; assert (Q : (4294967295 <= int_max flavor_default (fl_width flavor_default))%N) by (vm_compute; discriminate); lia|rewrite H3; vm_compute; discriminate]. }
    exists (program_calls 0 0 (nest n)), t, l. split.
    - split; auto. split; auto. split; auto. unfold fits. unfold tree_len in L. rewrite L, H2.
      assert (isize_max flavor_default = 9223372036854775807)%Z as -> by (vm_compute; reflexivity). lia.
    - destruct (nest_depths n 0 0 l S) as (xs & <- & M). auto. }
  destruct (G (N.to_nat 32770)) as (ops & t & l & Hf & M); [rewrite N2Nat.id; lia|].
  exists ops, t, l. split; auto. intros X source debug quote. pose proof (finished_shows _ _ _ _ _ Hf) as Hs. split.
  - destruct (C54_text nat X flavor_default t l source debug quote (Some 65535%N) [] Hs) as [_ P].
    set (ys := flat_map (preorder_depth 0) l) in *.
    assert (Hl : length ys = N.to_nat 32770) by (rewrite <- (map_length fst), M, map_length, seq_length; auto).
    assert (Hn : forall i y, nth_error ys i = Some y -> fst y = Z.of_nat i).
    { intros i y Hy. apply (map_nth_error fst) in Hy. rewrite M in Hy.
      assert (Hi : i < N.to_nat 32770). { rewrite <- (seq_length (N.to_nat 32770) 0), <- (map_length (fun i => 0 + Z.of_nat i)%Z). apply nth_error_Some. congruence. }
      rewrite (map_nth_error _ _ _ (d := i)) in Hy; [injection Hy; lia|].
      rewrite (nth_error_nth' _ 0) by (rewrite seq_length; auto). rewrite seq_nth by auto. auto. }
    destruct (nth_error ys (N.to_nat 32768)) as [[dp x]|] eqn:E; [|apply nth_error_None in E; lia].
    pose proof (Hn _ _ E) as Ed. cbn [fst] in Ed.
    apply nth_error_split in E as (before & after & Ey & Hb).
    rewrite (P 65535%N before dp x after); auto; [|lia].
    apply Forall_forall. intros y Hy. apply In_nth_error in Hy as (i & Hi).
    assert (i < length before) by (apply nth_error_Some; congruence).
    rewrite (Hn i y); [lia|]. rewrite Ey, nth_error_app1; auto.
  - rewrite (text_printed _ _ _ _ _ _ _ _ Hs). auto.
Qed.
Print Assumptions C54_deep_refuted.

(** ** Examples: the documentation's tree (src/print.rs lines 20-60 and 85-121), and the bounds of the
    reading theorems. *)
Definition doc_ops : list (op nat) :=
  [OOpen 0; OToken 0 3; OClose; OToken 1 1; OOpen 2; OToken 3 1; OClose; OToken 1 1; OOpen 0; OToken 0 2; OClose].
Definition doc_names (n : nat) : list N :=
  lit_bytes (match n with 0 => "NUMBER" | 1 => "WHITESPACE" | 2 => "OPERATOR" | _ => "PLUS" end).
Definition doc_source : list N := lit_bytes "128 + 64".
Definition doc_tree : tree nat := match build (w_builder (run_world flavor_default doc_ops)) with Ok t => t | _ => tree_new end.
Definition doc_quote (s : list N) : list N := 34%N :: s ++ [34%N].

Definition lines (l : list string) : list N := concat (map (fun s => lit_bytes s ++ [10%N]) l).

Example C54_documented : (exists l, finished flavor_default doc_ops doc_tree l) /\
  print_to flavor_default doc_tree (fun _ => None) doc_names doc_quote None vec_write_all [] =
  (lines ["NUMBER@0..3"; "  NUMBER@0..3 +"; "WHITESPACE@3..4 +"; "OPERATOR@4..5"; "  PLUS@4..5 +"; "WHITESPACE@5..6 +"; "NUMBER@6..8"; "  NUMBER@6..8 +"]%string, Printed) /\
  fst (print_to flavor_default doc_tree (fun sp => source_get (fun _ => true) doc_source (span_range flavor_default sp)) doc_names doc_quote None vec_write_all []) =
  concat (map (fun p => lit_bytes (fst p) ++ match snd p with EmptyString => [] | s => 32%N :: doc_quote (lit_bytes s) end ++ [10%N])
    [("NUMBER@0..3", ""); ("  NUMBER@0..3", "128"); ("WHITESPACE@3..4", " "); ("OPERATOR@4..5", ""); ("  PLUS@4..5", "+"); ("WHITESPACE@5..6", " ");
     ("NUMBER@6..8", ""); ("  NUMBER@6..8", "64")]%string) /\
  print_to flavor_default doc_tree (fun _ => None) doc_names doc_quote None slice_write_all ([], 14) =
  (lit_bytes "NUMBER@0..3" ++ 10%N :: lit_bytes "  ", 0, WriteFailed).
Proof.
  split; [|vm_compute; auto]. eexists. compute_finished.
Qed.

(** Names without an at-sign, a comma or a newline meet the conditions. *)
Lemma free_told A (c : N) (text : A -> list N) : (forall a b, text a = text b -> a = b) -> (forall a, ~ In c (text a)) -> told_by c text.
Proof.
  intros Hi Hc a b r r' E. apply Hi.
  assert (G : forall u v : list N, ~ In c u -> ~ In c v -> u ++ c :: r = v ++ c :: r' -> u = v).
  { induction u as [|x u IH]; intros [|y v] Hu Hv G; simpl in G; injection G; intros; subst; auto.
    - exfalso. apply Hv. simpl. auto.
    - exfalso. apply Hu. simpl. auto.
    - f_equal. apply IH; auto; intros Z; [apply Hu|apply Hv]; simpl; auto. }
  apply G; auto.
Qed.
Example C54_conditions : told_by 64 decimal /\ told_by 44 decimal /\ told_by 10 (fun n => 34%N :: decimal n) /\
  (forall n r, decimal n <> 32%N :: r) /\ (forall n, ~ In 10%N (decimal n)).
Proof.
  assert (D : forall c n, ~ digit c -> ~ In c (decimal n)).
  { intros c n Hc Hin. pose proof (decimal_digits n) as G. rewrite Forall_forall in G. apply Hc, G; auto. }
  split; [|split; [|split; [|split]]].
  - apply free_told; [exact decimal_inj|]. intros a. apply D. unfold digit. lia.
  - apply free_told; [exact decimal_inj|]. intros a. apply D. unfold digit. lia.
  - apply free_told; [intros a b E; apply decimal_inj; congruence|]. intros a [G|G]; [discriminate|]. revert G. apply D. unfold digit. lia.
  - intros n r E. apply (D 32%N n); [unfold digit; lia|]. rewrite E. simpl. auto.
  - intros n. apply D. unfold digit. lia.
Qed.

(** A value whose text starts with a space can pass for a deeper one. *)
Example C54_space_confuses : let debug (n : nat) := repeat 32%N (2 * n) in
  let built ops := match build (w_builder (run_world flavor_default ops)) with Ok t => t | _ => tree_new end in
  let show ops := print_to flavor_default (built ops) (fun _ => @None unit) debug (fun _ => []) None vec_write_all [] in
  show [OOpen 0; OTokenEmpty 0; OTokenEmpty 0; OClose] = show [OOpen 0; OTokenEmpty 0; OClose; OTokenEmpty 1].
Proof. vm_compute. auto. Qed.
