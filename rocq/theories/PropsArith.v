(** Property theorems: pointers, indexes, spans.  Pure arithmetic of the model
    of src/pointer.rs, src/index.rs, src/empty.rs and src/span.rs. *)
From Coq Require Import Lia.
From Verif Require Import Base Pointer Index Tree Builder Hist.
Open Scope N_scope.

(** ** C11: pointers *)

(** Values a [usize] argument can take. *)
Definition usize_ok (F : flavor) (v : N) : Prop := v <= fl_usize_max F.

Lemma int_max_pos : forall F, target_ok F -> 0 < int_max F (fl_width F).
Proof. intros F [H|H]; destruct F as [m x [] s i]; cbn in *; subst; reflexivity. Qed.

Lemma usize_pos : forall F, target_ok F -> 0 < fl_usize_max F.
Proof. intros F [H|H]; rewrite H; reflexivity. Qed.

Theorem C11_new_iff : forall F v, target_ok F ->
  ((exists p, ptr_new F v = Some p) <-> v < int_max F (fl_width F)).
Proof.
  intros F v HF. pose proof (int_max_pos F HF). unfold ptr_new.
  set (m := int_max F (fl_width F)) in *.
  destruct (N.leb_spec v m) as [Hv|Hv].
  - destruct (N.eq_dec v m) as [->|Hn].
    + rewrite N.mod_same by lia. split; [intros [p E]; discriminate|lia].
    + rewrite N.mod_small by lia. destruct (N.eqb_spec (v + 1) 0); [lia|]. split; [lia|eauto].
  - split; [intros [p E]; discriminate|lia].
Qed.
Print Assumptions C11_new_iff.

(** get() gives back the value; the representation is a nonzero value of the
    integer type. *)
Theorem C11_round_trip : forall F v p, target_ok F -> usize_ok F v ->
  ptr_new F v = Some p -> ptr_get F p = v /\ p <> 0 /\ p <= int_max F (fl_width F).
Proof.
  intros F v p HF Hv E. pose proof (int_max_pos F HF). pose proof (usize_pos F HF).
  assert (Hlt : v < int_max F (fl_width F)) by (apply C11_new_iff; eauto).
  unfold ptr_new, ptr_get, usize_ok in *. set (m := int_max F (fl_width F)) in *.
  destruct (N.leb_spec v m) as [_|]; [|lia].
  rewrite N.mod_small in E by lia. destruct (N.eqb_spec (v + 1) 0); [lia|]. injection E as <-.
  replace (v + 1 + m) with (v + 1 * (m + 1)) by lia. rewrite N.mod_add by lia.
  rewrite (N.mod_small v (m + 1)) by lia. rewrite N.mod_small by lia. lia.
Qed.
Print Assumptions C11_round_trip.

Theorem C11_injective : forall F v v' p, target_ok F -> usize_ok F v -> usize_ok F v' ->
  ptr_new F v = Some p -> ptr_new F v' = Some p -> v = v'.
Proof.
  intros F v v' p HF Hv Hv' E E'.
  destruct (C11_round_trip F v p) as [<- _]; auto. destruct (C11_round_trip F v' p) as [<- _]; auto.
Qed.
Print Assumptions C11_injective.

Theorem C11_unchecked : forall F v p, target_ok F -> ptr_new F v = Some p -> ptr_new_unchecked F v = p.
Proof.
  intros F v p HF E.
  assert (Hlt : v < int_max F (fl_width F)) by (apply C11_new_iff; eauto).
  unfold ptr_new, ptr_new_unchecked in *. set (m := int_max F (fl_width F)) in *.
  destruct (N.leb_spec v m) as [_|]; [|lia].
  rewrite (N.mod_small v) by lia. destruct (_ =? 0); congruence.
Qed.
Print Assumptions C11_unchecked.

(** Beyond the width, only the low bits count ([value as $ty]). *)
Theorem C11_truncates : forall F v, ptr_new_unchecked F (v + (int_max F (fl_width F) + 1)) = ptr_new_unchecked F v.
Proof.
  intros F v. unfold ptr_new_unchecked. set (m := int_max F (fl_width F)).
  replace (v + (m + 1)) with (v + 1 * (m + 1)) by lia. rewrite N.mod_add by lia. reflexivity.
Qed.
Print Assumptions C11_truncates.

(** Every nonzero representation whose value fits usize comes from its value. *)
Theorem C11_surjective : forall F p, target_ok F -> p <> 0 -> p <= int_max F (fl_width F) ->
  p <= fl_usize_max F -> ptr_new F (ptr_get F p) = Some p.
Proof.
  intros F p HF Hp Hm Hu. unfold ptr_new, ptr_get. set (m := int_max F (fl_width F)) in *.
  replace (p + m) with ((p - 1) + 1 * (m + 1)) by lia. rewrite N.mod_add by lia.
  rewrite (N.mod_small (p - 1) (m + 1)) by lia. rewrite (N.mod_small (p - 1)) by lia.
  destruct (N.leb_spec (p - 1) m); [|lia]. replace (p - 1 + 1) with p by lia.
  rewrite N.mod_small by lia. destruct (N.eqb_spec p 0); congruence.
Qed.
Print Assumptions C11_surjective.

Theorem C11_default : forall F, target_ok F -> ptr_get F (ptr_default F) = 0 /\ ptr_new F 0 = Some (ptr_default F).
Proof.
  intros F HF. pose proof (int_max_pos F HF). unfold ptr_get, ptr_default, ptr_new.
  set (m := int_max F (fl_width F)) in *. split.
  - replace (1 + m) with (0 + 1 * (m + 1)) by lia. rewrite N.mod_add by lia.
    rewrite (N.mod_small 0 (m + 1)) by lia. apply N.mod_small. pose proof (usize_pos F HF). lia.
  - destruct (N.leb_spec 0 m); [|lia]. rewrite N.mod_small by lia. reflexivity.
Qed.
Print Assumptions C11_default.

Definition flavor_u8 : flavor := Flavor usize_max_64 IxU32 U8 SVec SVec.
Example C11_u8 : ptr_new flavor_u8 254 = Some 255 /\ ptr_new flavor_u8 255 = None /\
  ptr_new flavor_u8 256 = None /\ ptr_get flavor_u8 255 = 254.
Proof. vm_compute. auto. Qed.

(** ** C34: spans *)

(** Positions of a span with start <= end: the half-open interval. *)
Definition in_span (s : span) (i : N) : Prop := s_start s <= i < s_end s.
(** [a] lies within [b] (as ranges of positions between characters). *)
Definition within (a b : span) : Prop := s_start b <= s_start a /\ s_end a <= s_end b.

Theorem C34_contains : forall s i, span_contains s i = true <-> in_span s i.
Proof.
  intros [a b] i. unfold span_contains, in_span. simpl.
  rewrite andb_true_iff, N.leb_le, N.ltb_lt. reflexivity.
Qed.
Print Assumptions C34_contains.

(** join is the least span containing both. *)
Theorem C34_join_least : forall a b,
  within a (span_join a b) /\ within b (span_join a b) /\
  forall c, within a c -> within b c -> within (span_join a b) c.
Proof.
  intros [a1 a2] [b1 b2]. unfold within, span_join; simpl. repeat split; try lia.
  all: destruct c; simpl in *; lia.
Qed.
Print Assumptions C34_join_least.

Theorem C34_join_laws :
  (forall a b, span_join a b = span_join b a) /\
  (forall a b c, span_join a (span_join b c) = span_join (span_join a b) c) /\
  (forall a, span_join a a = a) /\
  (forall a a' b b', within a a' -> within b b' -> within (span_join a b) (span_join a' b')).
Proof.
  unfold span_join, within. repeat split; intros; simpl; try (f_equal; lia); try lia.
  destruct a; simpl; f_equal; lia.
Qed.
Print Assumptions C34_join_laws.

(** join never invents positions for ordered spans that meet or overlap: it contains exactly
    the positions between the outermost ends. *)
Theorem C34_join_positions : forall a b i,
  s_start a <= s_end a -> s_start b <= s_end b -> s_start b <= s_end a -> s_start a <= s_end b ->
  (in_span (span_join a b) i <-> in_span a i \/ in_span b i).
Proof. intros [a1 a2] [b1 b2] i; unfold in_span, span_join; simpl; lia. Qed.
Print Assumptions C34_join_positions.

(** is_empty() compares the ends; for a span that is not reversed that means no position is inside. *)
Theorem C34_empty : forall s,
  (span_is_empty s = true <-> s_start s = s_end s) /\
  (s_start s <= s_end s -> (span_is_empty s = true <-> forall i, span_contains s i = false)).
Proof.
  intros [a b]. split; [unfold span_is_empty; simpl; rewrite N.eqb_eq; split; congruence|]. intros H. simpl in H. unfold span_is_empty; simpl. rewrite N.eqb_eq. split.
  - intros -> i. destruct (span_contains _ i) eqn:E; auto. apply C34_contains in E. unfold in_span in E; simpl in E; lia.
  - intros G. destruct (N.eq_dec b a); auto. exfalso.
    assert (span_contains (Span a b) a = true) by (apply C34_contains; unfold in_span; simpl; lia).
    rewrite G in H0. discriminate.
Qed.
Print Assumptions C34_empty.

Theorem C34_point : forall i, span_is_empty (span_point i) = true /\
  s_start (span_point i) = i /\ s_end (span_point i) = i.
Proof. intros i. unfold span_is_empty, span_point; simpl. rewrite N.eqb_refl. auto. Qed.
Print Assumptions C34_point.

(** len() is the number of positions; range() is start..end as usize values. *)
Theorem C34_len_range : forall F s, fl_index F <> IxEmpty ->
  span_range F s = (s_start s, s_end s) /\
  span_len F s = s_end s - s_start s /\
  (s_start s <= s_end s -> s_start s + span_len F s = s_end s) /\
  (span_is_empty s = true -> span_len F s = 0).
Proof.
  intros F [a b] H. unfold span_range, span_len, ix_as_usize, ix_len_to, span_is_empty; simpl.
  destruct (fl_index F); try congruence; repeat split; try lia; rewrite N.eqb_eq; lia.
Qed.
Print Assumptions C34_len_range.

Theorem C34_eq : forall a b, span_eqb a b = true <-> a = b.
Proof.
  intros [a1 a2] [b1 b2]. unfold span_eqb; simpl. rewrite andb_true_iff, !N.eqb_eq. split.
  - intros [-> ->]; auto.
  - intros E; injection E; auto.
Qed.
Print Assumptions C34_eq.

Example C34_inhabited : span_join (Span 0 4) (Span 2 9) = Span 0 9 /\ within (Span 2 4) (Span 0 9) /\
  span_contains (Span 2 4) 4 = false /\ span_contains (Span 2 4) 2 = true.
Proof. repeat split; simpl; discriminate. Qed.

(** ** C35: index arithmetic *)

(** Sum exact or refused; refused exactly when the mathematical sum does not fit. *)
Theorem C35_checked_add : forall F c len,
  target_ok F -> fl_index F <> IxEmpty -> usize_ok F len -> c <= ix_max F ->
  ix_checked_add_len F c len = if c + len <=? ix_max F then Some (c + len) else None.
Proof.
  intros F c len HF HE Hl Hc. unfold ix_checked_add_len, ix_max in *. destruct (fl_index F); try congruence.
  destruct (N.leb_spec len 4294967295); auto.
  destruct (N.leb_spec (c + len) 4294967295); auto. lia.
Qed.
Print Assumptions C35_checked_add.

Theorem C35_from_usize : forall F v, target_ok F -> fl_index F <> IxEmpty -> usize_ok F v ->
  ix_from_usize F v = if v <=? ix_max F then Some v else None.
Proof.
  intros F v HF HE Hv. unfold ix_from_usize, ix_max, usize_ok in *. destruct (fl_index F); try congruence; auto.
  destruct (N.leb_spec v (fl_usize_max F)); auto. lia.
Qed.
Print Assumptions C35_from_usize.

Theorem C35_as_usize : forall F v, target_ok F -> v <= ix_max F ->
  usize_ok F (ix_as_usize F v) /\ ix_from_usize F (ix_as_usize F v) = Some v.
Proof.
  intros F v HF Hv. unfold usize_ok, ix_as_usize, ix_from_usize, ix_max in *.
  assert (4294967295 <= fl_usize_max F) by (destruct HF as [-> | ->]; unfold usize_max_32, usize_max_64; lia).
  destruct (fl_index F).
  - destruct (N.leb_spec v 4294967295); split; auto; lia.
  - auto.
  - split; [lia|f_equal; lia].
Qed.
Print Assumptions C35_as_usize.
Close Scope N_scope.

(** A token that would push the cursor over the index type is refused, and
    nothing at all changes; from any state of any builder. *)
Theorem C35_token_refused : forall T F (w : world T) d len,
  fl_index F <> IxEmpty -> target_ok F -> usize_ok F len -> (b_cursor (w_builder w) <= ix_max F)%N ->
  (ix_max F < b_cursor (w_builder w) + len)%N ->
  step F w (OToken d len) = (w, RErr Overflow).
Proof.
  intros T F [h b env] d len HE HF Hl Hc Ho. simpl in *. unfold token.
  assert (len_is_empty F len = false) as ->.
  { unfold len_is_empty. destruct (fl_index F); try congruence; apply N.eqb_neq; lia. }
  rewrite C35_checked_add by auto.
  destruct (N.leb_spec (b_cursor b + len) (ix_max F)); [lia|]. reflexivity.
Qed.
Print Assumptions C35_token_refused.

Example C35_inhabited :
  snd (run flavor_default world_new [OToken 1 4294967295%N; OToken 2 1%N; OTokenEmpty 3]) =
  [RNode 0; RErr Overflow; RNode 1].
Proof. vm_compute. reflexivity. Qed.
