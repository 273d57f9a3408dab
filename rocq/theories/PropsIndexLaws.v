(** C35: the laws between adding a length and the length between two indexes. *)
From Coq Require Import Lia NArith.
From Verif Require Import Base Index Builder Hist PropsArith.
Open Scope N_scope.

(** From [a], the length to [b] leads to [b]; it is empty exactly if [b] is not after [a] (there are no negative lengths). *)
Theorem C35_len_to : forall F a b, target_ok F -> a <= ix_max F -> b <= ix_max F ->
  (a <= b -> ix_checked_add_len F a (ix_len_to F a b) = Some b) /\ (len_is_empty F (ix_len_to F a b) = true <-> b <= a) /\ usize_ok F (ix_len_to F a b).
Proof.
  intros F a b HF Ha Hb. unfold ix_checked_add_len, ix_len_to, len_is_empty, ix_max, usize_ok in *.
  assert (4294967295 <= fl_usize_max F) by (destruct HF as [-> | ->]; unfold usize_max_32, usize_max_64; lia).
  destruct (fl_index F).
  - rewrite N.eqb_eq. split; [|split; lia]. intros H1. destruct (N.leb_spec (b - a) 4294967295); [|lia]. replace (a + (b - a)) with b by lia. destruct (N.leb_spec b 4294967295); auto; lia.
  - rewrite N.eqb_eq. split; [|split; lia]. intros H1. replace (a + (b - a)) with b by lia. destruct (N.leb_spec b (fl_usize_max F)); auto; lia.
  - split; [intros; f_equal; lia|]. split; [split; intros; auto; lia|lia].
Qed.
Print Assumptions C35_len_to.

(** Adding a length leads to an index at that length, and stays in place exactly for the empty length ([Empty] has one length, 0). *)
Theorem C35_add_len : forall F a len b, target_ok F -> a <= ix_max F -> (fl_index F = IxEmpty -> len = 0) ->
  ix_checked_add_len F a len = Some b -> a <= b /\ b <= ix_max F /\ ix_len_to F a b = len /\ (len_is_empty F len = true <-> b = a).
Proof.
  intros F a len b HF Ha He. unfold ix_checked_add_len, ix_len_to, len_is_empty, ix_max in *. destruct (fl_index F).
  - destruct (N.leb_spec len 4294967295); [|discriminate]. destruct (N.leb_spec (a + len) 4294967295); [|discriminate]. intros E. injection E as <-. rewrite N.eqb_eq. repeat split; lia.
  - destruct (N.leb_spec (a + len) (fl_usize_max F)); [|discriminate]. intros E. injection E as <-. rewrite N.eqb_eq. repeat split; lia.
  - specialize (He eq_refl). intros E. injection E as <-. repeat split; try lia.
Qed.
Print Assumptions C35_add_len.

Example C35_laws_inhabited : ix_checked_add_len flavor_default 3 (ix_len_to flavor_default 3 10) = Some 10 /\ len_is_empty flavor_default (ix_len_to flavor_default 10 3) = true.
Proof. split; reflexivity. Qed.
