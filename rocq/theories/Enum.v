(** Generic facts about iterators: [enumerates] by unfolding one call, relational
    form, filters, folds. *)
From Coq Require Import Lia.
From Verif Require Import Base Tree Node Iter Spec.

Section Enum.
Context {S A : Type}.
Variable nxt : S -> result (S * option A).

Lemma firstn_repeat_more {B} (l : list B) x k j :
  k <= j -> firstn k (l ++ repeat x j) = firstn k (l ++ repeat x k).
Proof.
  revert k j; induction l as [|y l IH]; intros k j H; cbn [app].
  - revert j H; induction k as [|k IHk]; intros [|j] H; simpl; auto; try lia.
    f_equal. apply IHk. lia.
  - destruct k as [|k]; auto. cbn [firstn app]. f_equal.
    rewrite (IH k j), (IH k (Datatypes.S k)) by lia. auto.
Qed.

Lemma enumerates_cons s x xs :
  enumerates nxt s (x :: xs) <->
  exists s1, nxt s = Ok (s1, Some x) /\ enumerates nxt s1 xs.
Proof.
  split.
  - intros H. pose proof (H 1) as H1. simpl in H1.
    destruct (nxt s) as [[s1 a]|e|] eqn:E; try discriminate.
    injection H1 as ->. exists s1. split; auto. intros k.
    specialize (H (Datatypes.S k)). simpl in H. rewrite E in H.
    destruct (calls nxt k s1) as [l|e|]; try discriminate. injection H as ->.
    f_equal. apply (firstn_repeat_more (map Some xs) None k (Datatypes.S k)); lia.
  - intros (s1 & E & H) [|k]; simpl; auto. rewrite E, H.
    f_equal. try f_equal. symmetry. apply (firstn_repeat_more (map Some xs) None k (Datatypes.S k)); lia.
Qed.

Lemma enumerates_nil s :
  enumerates nxt s [] <-> exists s1, nxt s = Ok (s1, None) /\ enumerates nxt s1 [].
Proof.
  split.
  - intros H. pose proof (H 1) as H1. simpl in H1.
    destruct (nxt s) as [[s1 a]|e|] eqn:E; try discriminate.
    injection H1 as ->. exists s1. split; auto. intros k.
    specialize (H (Datatypes.S k)). simpl in H. rewrite E in H.
    destruct (calls nxt k s1) as [l|e|]; try discriminate. injection H as ->. auto.
  - intros (s1 & E & H) [|k]; simpl; auto. rewrite E, H. auto.
Qed.

(** A state invariant under which every call answers [None]. *)
Lemma enumerates_stuck (P : S -> Prop) :
  (forall s, P s -> exists s1, nxt s = Ok (s1, None) /\ P s1) ->
  forall s, P s -> enumerates nxt s [].
Proof.
  intros H s Hs k. revert s Hs. induction k as [|k IH]; intros s Hs; simpl; auto.
  destruct (H s Hs) as (s1 & -> & H1). rewrite (IH s1 H1). auto.
Qed.

Lemma enumerates_fun s l1 l2 : enumerates nxt s l1 -> enumerates nxt s l2 -> l1 = l2.
Proof.
  revert s l2; induction l1 as [|x l1 IH]; intros s [|y l2] H1 H2; auto.
  - apply enumerates_nil in H1 as (s1 & E & _). apply enumerates_cons in H2 as (s2 & E2 & _). congruence.
  - apply enumerates_nil in H2 as (s1 & E & _). apply enumerates_cons in H1 as (s2 & E2 & _). congruence.
  - apply enumerates_cons in H1 as (s1 & E1 & H1). apply enumerates_cons in H2 as (s2 & E2 & H2).
    rewrite E1 in E2. injection E2 as <- <-. f_equal. eauto.
Qed.

(** Relational form *)
Definition enum_rel {B} (Rl : A -> B -> Prop) (s : S) (xs : list B) : Prop :=
  exists items, enumerates nxt s items /\ Forall2 Rl items xs.

Lemma enum_rel_nil {B} (Rl : A -> B -> Prop) s : enumerates nxt s [] -> enum_rel Rl s [].
Proof. exists []. auto. Qed.
Lemma enum_rel_cons {B} (Rl : A -> B -> Prop) s s1 a x xs :
  nxt s = Ok (s1, Some a) -> Rl a x -> enum_rel Rl s1 xs -> enum_rel Rl s (x :: xs).
Proof.
  intros E H (it & H1 & H2). exists (a :: it). split; auto. apply enumerates_cons. eauto.
Qed.
Lemma enum_rel_cons_inv {B} (Rl : A -> B -> Prop) s x xs :
  enum_rel Rl s (x :: xs) -> exists s1 a, nxt s = Ok (s1, Some a) /\ Rl a x /\ enum_rel Rl s1 xs.
Proof.
  intros (it & H1 & H2). inversion H2; subst. apply enumerates_cons in H1 as (s1 & E & H1).
  exists s1, x0. repeat split; auto. exists l. auto.
Qed.
Lemma enum_rel_nil_inv {B} (Rl : A -> B -> Prop) s :
  enum_rel Rl s [] -> exists s1, nxt s = Ok (s1, None) /\ enum_rel Rl s1 [].
Proof.
  intros (it & H1 & H2). inversion H2; subst. apply enumerates_nil in H1 as (s1 & E & H1).
  exists s1. split; auto. exists []; auto.
Qed.

End Enum.

Section Enum2.
Context {S A : Type}.
Variable nxt : S -> result (S * option A).

(** [find]-based iterators *)
Lemma iter_find_enumerates p : forall items s fuel, enumerates nxt s items ->
  length items < fuel ->
  enumerates (iter_find fuel nxt p) s (filter p items).
Proof.
  intros items s fuel H Hf.
  assert (Hnil : forall s, enumerates nxt s [] -> enumerates (iter_find fuel nxt p) s []).
  { clear -Hf. apply enumerates_stuck. intros s H. apply enumerates_nil in H as (s1 & E & H). exists s1. split; auto.
    destruct fuel; [lia|]. simpl. rewrite E. auto. }
  revert s H Hf. induction items as [|x items IH]; intros s H Hf; simpl; auto.
  pose proof H as H0. apply enumerates_cons in H as (s1 & E & H). simpl in Hf.
  destruct (p x) eqn:Ep.
  - apply enumerates_cons. exists s1. split; [|apply IH; auto; lia].
    destruct fuel; [lia|]. simpl. rewrite E, Ep. auto.
  - (* the first call skips [x] *)
    specialize (IH s1 H ltac:(lia)).
    assert (Hfirst : iter_find fuel nxt p s = iter_find fuel nxt p s1).
    { destruct fuel as [|fuel]; [lia|].
      (* more fuel than items left does not matter *)
      assert (G : forall its s f1 f2, enumerates nxt s its -> length its < f1 -> length its < f2 ->
                iter_find f1 nxt p s = iter_find f2 nxt p s).
      { clear. induction its as [|y its IHi]; intros s [|f1] [|f2] H H1 H2; try (simpl in *; lia).
        - apply enumerates_nil in H as (s1 & E & H). simpl. rewrite E. auto.
        - apply enumerates_cons in H as (s1 & E & H). simpl. rewrite E.
          destruct (p y); auto. apply IHi; auto; simpl in *; lia. }
      transitivity (iter_find fuel nxt p s1); [simpl; rewrite E, Ep; auto|].
      apply (G items); auto; lia. }
    intros k. specialize (IH k). rewrite <- IH. destruct k; auto. simpl. rewrite Hfirst. auto.
Qed.

Lemma iter_collect_enumerates : forall items s fuel, enumerates nxt s items ->
  length items < fuel -> exists s', iter_collect fuel nxt s = Ok (s', items) /\ enumerates nxt s' [].
Proof.
  induction items as [|x items IH]; intros s fuel H Hf; destruct fuel as [|fuel]; try lia; simpl.
  - apply enumerates_nil in H as (s1 & -> & H). eauto.
  - apply enumerates_cons in H as (s1 & -> & H).
    destruct (IH s1 fuel H) as (s' & -> & Hs); eauto. simpl in Hf. lia.
Qed.
End Enum2.

Lemma enum_rel_impl {S A B} (nxt : S -> result (S * option A)) (R1 R2 : A -> B -> Prop) s xs :
  (forall a x, R1 a x -> R2 a x) -> enum_rel nxt R1 s xs -> enum_rel nxt R2 s xs.
Proof.
  intros H (it & H1 & H2). exists it. split; auto. clear H1.
  induction H2; constructor; auto.
Qed.

(** Two iterators with the same answers enumerate the same items. *)
Lemma enumerates_ext {S A} (n1 n2 : S -> result (S * option A)) :
  (forall s, n1 s = n2 s) -> forall s items, enumerates n1 s items -> enumerates n2 s items.
Proof.
  intros H s items He k. specialize (He k). rewrite <- He. clear He. revert s.
  induction k as [|k IH]; intros s; simpl; auto. rewrite H.
  destruct (n2 s) as [[s1 a]|e|]; auto. rewrite IH. auto.
Qed.

Lemma calls_enum_ext {S A} (nxt : S -> result (S * option A)) s s1 items :
  nxt s = nxt s1 -> enumerates nxt s1 items -> enumerates nxt s items.
Proof.
  intros E H k. specialize (H k). rewrite <- H. destruct k; auto. simpl. rewrite E. auto.
Qed.
Lemma enum_rel_ext {S A B} (nxt : S -> result (S * option A)) (Rl : A -> B -> Prop) s s1 items :
  nxt s = nxt s1 -> enum_rel nxt Rl s1 items -> enum_rel nxt Rl s items.
Proof. intros E (it & H1 & H2). exists it. split; auto. eapply calls_enum_ext; eauto. Qed.
