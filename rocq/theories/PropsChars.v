(** C49: the characters the example programs see. *)
From Coq Require Import Lia List NArith.
Import ListNotations.
From Verif Require Import Base Text ClientMath ClientSynth SpecChars.
From Verif Require CalcParse.

Lemma len_bytes c : N.of_nat (length (utf8 c)) = len_utf8 c.
Proof.
  unfold utf8, len_utf8.
  destruct (N.leb_spec c 0x7F), (N.ltb_spec c 128); try lia; auto.
  destruct (N.leb_spec c 0x7FF), (N.ltb_spec c 2048); try lia; auto.
  destruct (N.leb_spec c 0xFFFF), (N.ltb_spec c 65536); try lia; auto.
Qed.
Lemma str_bytes s : str_len s = byte_len s.
Proof.
  unfold byte_len, bytes. induction s as [|c s IH]; simpl; auto. rewrite app_length, IH, Nnat.Nat2N.inj_add, len_bytes. auto.
Qed.
Lemma str_len_app a b : (str_len (a ++ b) = str_len a + str_len b)%N.
Proof. unfold str_len. induction a as [|c a IH]; simpl; auto. lia. Qed.
Lemma str_from_some s : forall k r, str_from s k = Some r -> exists pre, s = pre ++ r /\ k = str_len pre.
Proof.
  induction s as [|c s IH]; intros k r H; simpl in H; destruct (N.eqb_spec k 0) as [->|]; try discriminate.
  - injection H as <-. exists []. auto.
  - injection H as <-. exists []. auto.
  - destruct (N.ltb_spec k (len_utf8 c)); [discriminate|]. destruct (IH _ _ H) as (pre & -> & E). exists (c :: pre). split; auto.
    simpl. lia.
Qed.
Lemma str_to_some s : forall k r, str_to s k = Some r -> exists post, s = r ++ post /\ k = str_len r.
Proof.
  induction s as [|c s IH]; intros k r H; simpl in H; destruct (N.eqb_spec k 0) as [->|]; try discriminate.
  - injection H as <-. exists []. auto.
  - injection H as <-. exists (c :: s). auto.
  - destruct (N.ltb_spec k (len_utf8 c)); [discriminate|]. destruct (str_to s (k - len_utf8 c)%N) as [d|] eqn:E; [|discriminate].
    injection H as <-. destruct (IH _ _ E) as (post & -> & E'). exists post. split; auto. simpl. lia.
Qed.
Lemma str_get_part s a b d : str_get s (a, b) = Some d <-> part s a b d.
Proof.
  unfold part. split.
  - unfold str_get. destruct (N.ltb_spec b a); [discriminate|]. destruct (str_from s a) as [r|] eqn:E; [|discriminate].
    intros H1. apply str_from_some in E as (pre & -> & Ea). apply str_to_some in H1 as (post & -> & Eb).
    exists pre, post. rewrite <- !str_bytes, str_len_app. repeat split; auto. lia.
  - intros (pre & post & -> & -> & ->). rewrite <- !str_bytes, str_len_app. apply CalcParse.str_get_app.
Qed.
Lemma indices_positions s : forall a l, char_indices a s = l <-> positions a s l.
Proof.
  induction s as [|c s IH]; intros a l; simpl.
  - split; [intros <-; constructor|inversion 1; auto].
  - assert (E : byte_len [c] = len_utf8 c) by (rewrite <- str_bytes; simpl; lia). split.
    + intros <-. constructor. rewrite E. apply IH. auto.
    + inversion 1 as [|? ? ? l' H']; subst. f_equal. apply IH. rewrite <- E. auto.
Qed.

Lemma in_range lo n c : In c (map (fun i => (lo + N.of_nat i)%N) (seq 0 n)) <-> (lo <= c < lo + N.of_nat n)%N.
Proof.
  rewrite in_map_iff. split.
  - intros (i & <- & H). apply in_seq in H. lia.
  - intros H. exists (N.to_nat (c - lo)). rewrite in_seq. lia.
Qed.

(** White space, digits and letters are those of Unicode and ASCII; lengths, positions and slices are
    those of the UTF-8 bytes. *)
Theorem C49_characters : forall c s a b d l,
  (is_whitespace c = true <-> In c white_space) /\
  (is_digit c = true <-> In c digits) /\
  (is_lower c = true <-> In c small_letters) /\
  (is_alpha c = true <-> In c small_letters \/ In c capital_letters) /\
  str_len s = byte_len s /\
  (str_get s (a, b) = Some d <-> part s a b d) /\
  (char_indices a s = l <-> positions a s l).
Proof.
  intros c s a b d l.
  assert (D : is_digit c = true <-> In c digits).
  { rewrite (in_range 48 10 c). unfold is_digit. rewrite Bool.andb_true_iff, !N.leb_le. lia. }
  assert (L : is_lower c = true <-> In c small_letters).
  { rewrite (in_range 97 26 c). unfold is_lower. rewrite Bool.andb_true_iff, !N.leb_le. lia. }
  assert (C : ((65 <=? c) && (c <=? 90))%N = true <-> In c capital_letters).
  { rewrite (in_range 65 26 c). rewrite Bool.andb_true_iff, !N.leb_le. lia. }
  split; [|split; [exact D|split; [exact L|split]]].
  - assert (W : In c white_space <-> In c (map (fun i => (9 + N.of_nat i)%N) (seq 0 5)) \/ In c [32; 133; 160; 5760]%N \/
      In c (map (fun i => (8192 + N.of_nat i)%N) (seq 0 11)) \/ In c [8232; 8233; 8239; 8287; 12288]%N).
    { rewrite <- !in_app_iff. reflexivity. }
    rewrite W, !in_range. unfold is_whitespace. repeat (rewrite Bool.orb_true_iff || rewrite Bool.andb_true_iff). rewrite !N.leb_le, !N.eqb_eq.
    cbn [In]. change (N.of_nat 5) with 5%N. change (N.of_nat 11) with 11%N. split; intros H; repeat destruct H as [H|H]; try tauto; lia.
  - unfold is_alpha. rewrite Bool.orb_true_iff, C, L. tauto.
  - split; [apply str_bytes|]. split; [apply str_get_part|apply indices_positions].
Qed.
Print Assumptions C49_characters.

(** UTF-8 in use: the bytes of a dollar sign, a cent sign, a euro sign and a Gothic letter; slices. *)
Example C49_characters_inhabited :
  bytes [0x24; 0xA2; 0x20AC; 0x10348]%N = [0x24; 0xC2; 0xA2; 0xE2; 0x82; 0xAC; 0xF0; 0x90; 0x8D; 0x88]%N /\
  str_get [0x24; 0xA2; 0x20AC; 0x10348]%N (1, 6)%N = Some [0xA2; 0x20AC]%N /\ str_get [0x24; 0xA2; 0x20AC]%N (2, 6)%N = None /\
  is_whitespace 0x3000 = true /\ is_whitespace 0x200B = false.
Proof. repeat split. Qed.
