(** C78: the texts of identifiers, spans, errors and events. *)
From Coq Require Import Strings.String Lia ZArith List.
Import ListNotations.
From Verif Require Import Base Pointer Index Tree Builder Hist Node Iter Print Render Labels Spec SpecText Rep Bounds Demo PropsTree PropsSafe PropsArith PropsText.
Open Scope nat_scope.

(** An identifier that a call of the builder returns is shown as the number of the nodes that were there before, in decimal;
    and so is [id()] of that node. *)
Theorem C78_identifiers : forall T F (ops : list (op T)) o id, vec_flavor F -> target_ok F -> fits F (tree_so_far F (ops ++ [o])) ->
  snd (step F (run_world F ops) o) = RNode id ->
  exists p n, ptr_new F (N.of_nat id) = Some p /\ numeral (N.of_nat (tree_len (tree_so_far F ops))) (ptr_debug F p) /\
    tree_get (tree_so_far F (ops ++ [o])) id = Some n /\ node_id_raw F n = p.
Proof.
  intros T F ops o id HF HT Hfit E. pose proof (C10_fresh T F ops o HF) as G. cbv zeta in G. rewrite E in G. destruct G as (G1 & G2 & _).
  pose proof (C12_size T F (ops ++ [o]) HF) as HB. pose proof (fits_usize F _ Hfit) as HU. unfold tree_len in *.
  assert (Hp : exists p, ptr_new F (N.of_nat id) = Some p) by (apply C11_new_iff; auto; lia). destruct Hp as [p Ep].
  assert (Hn : exists n, tree_get (tree_so_far F (ops ++ [o])) id = Some n).
  { unfold tree_get, node_at. destruct (nth_error (t_nodes (tree_so_far F (ops ++ [o]))) id) eqn:En; [eauto|]. apply nth_error_None in En. lia. }
  destruct Hn as [n En]. exists p, n. split; auto. split; [|split; auto].
  - apply C54_numbers. unfold ptr_debug. destruct (C11_round_trip F (N.of_nat id) p HT) as [-> _]; [unfold usize_ok; lia|auto|]. subst id. auto.
  - destruct (so_far_id T F _ id n HF Hfit En) as [Ef _]. unfold node_id_raw. rewrite Ef. apply C11_unchecked; auto.
Qed.
Print Assumptions C78_identifiers.

(** Two identifiers of the same width are shown alike exactly if they are equal. *)
Theorem C78_told_apart : forall F v w p q, target_ok F -> usize_ok F v -> usize_ok F w -> ptr_new F v = Some p -> ptr_new F w = Some q ->
  (ptr_debug F p = ptr_debug F q <-> p = q).
Proof.
  intros F v w p q HT Hv Hw Ep Eq. split; [|congruence]. unfold ptr_debug. intros E. apply decimal_inj in E.
  destruct (C11_round_trip F v p HT Hv Ep) as [E1 _]. destruct (C11_round_trip F w q HT Hw Eq) as [E2 _]. congruence.
Qed.
Print Assumptions C78_told_apart.

(** A span is shown by the numbers of its ends with two dots between them, or as a pair: either text determines it. *)
Theorem C78_spans : forall F a b, fl_index F <> IxEmpty ->
  (span_text a = span_text b <-> a = b) /\ (span_debug F a = span_debug F b <-> a = b) /\
  exists x y, numeral (s_start a) x /\ numeral (s_end a) y /\ span_text a = x ++ [46%N; 46%N] ++ y /\ span_debug F a = [40%N] ++ x ++ [44%N; 32%N] ++ y ++ [41%N].
Proof.
  intros F a b HE. assert (D : forall c, (c < 48)%N -> ~ digit c) by (unfold digit; lia).
  assert (Hs : forall c, span_text c = decimal (s_start c) ++ 46%N :: 46%N :: decimal (s_end c)) by (intros c; unfold span_text, span_display; cbn [concat]; rewrite app_nil_r; auto).
  assert (Hd : forall c, span_debug F c = 40%N :: decimal (s_start c) ++ 44%N :: 32%N :: decimal (s_end c) ++ [41%N]) by (intros c; unfold span_debug, index_debug; destruct (fl_index F); try congruence; auto).
  split; [|split].
  - split; [|congruence]. rewrite !Hs. intros E. apply decimal_stop in E as (E1 & _ & E2); try (apply D; lia). injection E2 as E2. apply decimal_inj in E2. destruct a, b; simpl in *; congruence.
  - split; [|congruence]. rewrite !Hd. intros E. injection E as E. apply decimal_stop in E as (E1 & _ & E2); try (apply D; lia). injection E2 as E2. apply decimal_stop in E2 as (E2 & _); try (apply D; lia).
    destruct a, b; simpl in *; congruence.
  - exists (decimal (s_start a)), (decimal (s_end a)). rewrite Hs, Hd. split; [apply C54_numbers; auto|]. split; [apply C54_numbers; auto|]. auto.
Qed.
Print Assumptions C78_spans.

(** The [Debug] text of an error determines it, also the flavor's own among the others; only that one has a source, and its message is the source's. *)
Theorem C78_errors : forall text text' e e', error_debug text e = error_debug text' e' -> e = e' /\ (e = FlavorError -> text = text').
Proof.
  intros text text' e e' E. destruct e, e'; cbn [error_debug] in E; try (split; congruence); try (exfalso; vm_compute in E; discriminate E).
  - apply app_inv_head in E. apply app_inv_tail in E. apply decimal_inj in E. split; [f_equal; lia|discriminate].
  - apply app_inv_head in E. apply app_inv_tail in E. auto.
Qed.
Print Assumptions C78_errors.
Theorem C78_source : forall e, error_source e = true <-> forall text, error_display text e = text.
Proof.
  intros e. split; [destruct e; simpl; congruence || auto|]. intros H. destruct e; auto; specialize (H []); vm_compute in H; discriminate.
Qed.
Print Assumptions C78_source.
Theorem C78_events : forall e e', event_debug e = event_debug e' -> e = e'.
Proof. intros [] [] E; auto; vm_compute in E; discriminate. Qed.
Print Assumptions C78_events.

Example C78_inhabited : snd (step flavor_default (run_world flavor_default [OOpen 7]) (OToken 8 1%N)) = RNode 1 /\
  option_map (ptr_debug flavor_default) (ptr_new flavor_default 1%N) = Some (lit_bytes "1") /\
  span_text (Span 3 12) = lit_bytes "3..12" /\ span_debug flavor_default (Span 3 12) = lit_bytes "(3, 12)" /\ error_debug [] (MissingNode 20) = lit_bytes "MissingNode(20)".
Proof. repeat split. Qed.
