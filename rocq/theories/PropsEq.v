(** Property theorems: tree equality (C28). *)
From Coq Require Import Lia.
From Verif Require Import Base Pointer Index Tree Builder Hist Node Iter Query Spec SpecEq Rep Refine TreeRep
  Enum WalkThms Demo PropsTree PropsFused.

Section All2.
Context {A B : Type}.
Variable eqi : A -> B -> bool.
Fixpoint all2 (l : list A) (m : list B) : bool :=
  match l, m with
  | [], [] => true
  | a :: l, b :: m => eqi a b && all2 l m
  | _, _ => false
  end.
Lemma all2_Forall2 l m : all2 l m = true <-> Forall2 (fun a b => eqi a b = true) l m.
Proof.
  revert m; induction l as [|a l IH]; intros [|b m]; simpl; split; intros H; try discriminate; auto; try (inversion H; fail).
  - apply andb_true_iff in H as [H1 H2]. constructor; auto. apply IH; auto.
  - inversion H; subst. rewrite H3. simpl. apply IH; auto.
Qed.
End All2.

Lemma iter_eq_all2 {S1 S2 A B} (n1 : S1 -> result (S1 * option A)) (n2 : S2 -> result (S2 * option B)) eqi :
  forall l m s1 s2 fuel, enumerates n1 s1 l -> enumerates n2 s2 m -> length l < fuel ->
  iter_eq fuel n1 n2 eqi s1 s2 = Ok (all2 eqi l m).
Proof.
  induction l as [|a l IH]; intros [|b m] s1 s2 [|fuel] H1 H2 Hf; try (simpl in Hf; lia); simpl.
  - apply enumerates_nil in H1 as (s1' & -> & _). apply enumerates_nil in H2 as (s2' & -> & _). auto.
  - apply enumerates_nil in H1 as (s1' & -> & _). apply enumerates_cons in H2 as (s2' & -> & _). auto.
  - apply enumerates_cons in H1 as (s1' & -> & _). apply enumerates_nil in H2 as (s2' & -> & _). auto.
  - apply enumerates_cons in H1 as (s1' & -> & H1). apply enumerates_cons in H2 as (s2' & -> & H2).
    destruct (eqi a b); auto. simpl in Hf. apply IH; auto. lia.
Qed.

Section Shape.
Context {T : Type}.
Variable eqT : T -> T -> bool.
Notation pd k := (flat_map (preorder_depth k)).

Definition meets (a b : Z * rose T) : Prop :=
  fst a = fst b /\ eqT (r_data (snd a)) (r_data (snd b)) = true /\ r_span (snd a) = r_span (snd b).

(** what follows is nearer to the root *)
Definition above (k : Z) (r : list (Z * rose T)) : Prop :=
  match r with [] => True | (j, _) :: _ => (j < k)%Z end.

Lemma above_pd k l r : above k r -> above (k + 1) (pd k l ++ r).
Proof.
  destruct l as [|[i kd d sp kids] l]; simpl.
  - destruct r as [|[j x] r]; simpl; auto. lia.
  - lia.
Qed.

Lemma meets_above_l k r x m : above k r -> Forall2 meets r ((k, x) :: m) -> False.
Proof. intros A H. destruct r as [|[j y] r]; inversion H as [|? ? ? ? Hm]; subst. destruct Hm as [E _]. simpl in *. lia. Qed.
Lemma meets_above_r k r x m : above k r -> Forall2 meets ((k, x) :: m) r -> False.
Proof. intros A H. destruct r as [|[j y] r]; inversion H as [|? ? ? ? Hm]; subst. destruct Hm as [E _]. simpl in *. lia. Qed.

Lemma depths_alike n : forall l1 l2 k r1 r2, length (preorder_list l1) <= n -> above k r1 -> above k r2 ->
  Forall2 meets (pd k l1 ++ r1) (pd k l2 ++ r2) -> Forall2 (alike eqT) l1 l2 /\ Forall2 meets r1 r2.
Proof.
  induction n as [|n IH]; intros l1 l2 k r1 r2 Hn A1 A2 H.
  - destruct l1 as [|[i kd d sp kids] l1]; [|simpl in Hn; lia]. destruct l2 as [|[i kd d sp kids] l2]; simpl in *; auto.
    exfalso. eapply meets_above_l; [apply A1|exact H].
  - destruct l1 as [|[i kd d sp kids] l1].
    + destruct l2 as [|[i kd d sp kids] l2]; simpl in *; auto.
      exfalso. eapply meets_above_l; [apply A1|exact H].
    + destruct l2 as [|[i2 kd2 d2 sp2 kids2] l2].
      * exfalso. simpl in H. eapply meets_above_r; [apply A2|exact H].
      * simpl in H. inversion H as [|? ? ? ? Hm H5]; subst. clear H. destruct Hm as (_ & E1 & E2). simpl in E1, E2. subst sp2.
        rewrite <- !app_assoc in H5. unfold preorder_list in Hn. simpl in Hn. rewrite app_length in Hn.
        destruct (IH kids kids2 (k + 1)%Z _ _ ltac:(unfold preorder_list; lia) (above_pd k l1 r1 A1) (above_pd k l2 r2 A2) H5) as [G1 G2].
        destruct (IH l1 l2 k r1 r2 ltac:(unfold preorder_list; lia) A1 A2 G2) as [G3 G4].
        split; auto. constructor; auto. constructor; auto.
Qed.

Lemma alike_depths n : forall l1 l2 k, length (preorder_list l1) <= n ->
  Forall2 (alike eqT) l1 l2 -> Forall2 meets (pd k l1) (pd k l2).
Proof.
  induction n as [|n IH]; intros l1 l2 k Hn H; (destruct H as [|x y l1 l2 Hx Hl]; [constructor|]).
  - destruct x; simpl in Hn; lia.
  - inversion Hx; subst. unfold preorder_list in Hn. simpl in Hn. rewrite app_length in Hn. simpl. constructor.
    { split; [auto|]. split; auto. }
    apply Forall2_app; apply IH; auto; unfold preorder_list; lia.
Qed.

Lemma Forall2_map_iff {A B C D} (f : A -> C) (g : B -> D) (P : C -> D -> Prop) l m :
  Forall2 P (map f l) (map g m) <-> Forall2 (fun a b => P (f a) (g b)) l m.
Proof.
  revert m; induction l as [|a l IH]; intros [|b m]; simpl; split; intros H; auto; try (inversion H; fail).
  - inversion H; subst. constructor; auto. apply IH; auto.
  - inversion H; subst. constructor; auto. apply IH; auto.
Qed.
End Shape.

Lemma items_meet {T} eqT (l m : list (Z * node T)) (xs ys : list (Z * rose T)) :
  map (fun i => (fst i, view (snd i))) l = map (fun i => (fst i, rview (snd i))) xs ->
  map (fun i => (fst i, view (snd i))) m = map (fun i => (fst i, rview (snd i))) ys ->
  (all2 (item_eq eqT) l m = true <-> Forall2 (meets eqT) xs ys).
Proof.
  rewrite all2_Forall2. revert m xs ys.
  induction l as [|[k n] l IH]; intros m [|[j x] xs] ys E1 E2; try discriminate; destruct m as [|[k2 n2] m], ys as [|[j2 y] ys]; try discriminate;
    try (split; intros H; inversion H; constructor; fail).
  simpl in E1, E2. injection E1 as -> _ D1 S1 _ E1. injection E2 as -> _ D2 S2 _ E2.
  specialize (IH m xs ys E1 E2).
  assert (G : item_eq eqT (j, n) (j2, n2) = true <-> meets eqT (j, x) (j2, y)).
  { unfold item_eq, node_eq, meets, span_eqb. simpl. rewrite D1, D2, S1, S2, !andb_true_iff, Z.eqb_eq, !N.eqb_eq.
    destruct (r_span x), (r_span y); simpl. split; [intros (A & B & C & D); subst; auto|intros (A & B & C); injection C; auto]. }
  split; intros H; inversion H; subst; constructor; try apply G; auto; apply IH; auto.
Qed.

(** [==] returns, and says whether the documents are alike; the flavors may differ. *)
Theorem C28_equality : forall T (eqT : T -> T -> bool) F1 (ops1 : list (op T)) t1 l1 F2 ops2 t2 l2,
  finished F1 ops1 t1 l1 -> finished F2 ops2 t2 l2 ->
  exists b, tree_eq F1 F2 eqT t1 t2 = Ok b /\ (b = true <-> Forall2 (alike eqT) l1 l2).
Proof.
  intros T eqT F1 ops1 t1 l1 F2 ops2 t2 l2 H1 H2.
  destruct (C21_depths T F1 ops1 t1 l1 H1) as (it1 & En1 & V1).
  destruct (C21_depths T F2 ops2 t2 l2 H2) as (it2 & En2 & V2).
  exists (all2 (item_eq eqT) it1 it2). split.
  - unfold tree_eq. apply iter_eq_all2; auto. unfold tree_len.
    rewrite (tr_length _ _ (fin_rep F1 ops1 t1 l1 H1)), <- preorder_depth_len.
    rewrite <- (map_length (fun i => (fst i, rview (snd i)))), <- V1, map_length. auto.
  - rewrite (items_meet eqT it1 it2 _ _ V1 V2). split; intros H.
    + eapply (depths_alike eqT _ l1 l2 0%Z [] []); simpl; auto. rewrite !app_nil_r. auto.
    + eapply alike_depths; eauto.
Qed.
Print Assumptions C28_equality.

Lemma alike_erase {T} (eqT : T -> T -> bool) : (forall a b, eqT a b = true <-> a = b) ->
  forall x y : rose T, alike eqT x y <-> erase x = erase y.
Proof.
  intros He. induction x as [i k d sp kids IH] using rose_ind'. intros [i2 k2 d2 sp2 kids2].
  assert (G : Forall2 (alike eqT) kids kids2 <-> map erase kids = map erase kids2).
  { clear -IH. revert kids2. induction IH as [|x kids Hx _ IHk]; intros [|y kids2]; simpl; split; intros H; auto; try discriminate; try (inversion H; fail).
    - inversion H; subst. f_equal; [apply Hx; auto|apply IHk; auto].
    - injection H as E1 E2. constructor; [apply Hx|apply IHk]; auto. }
  simpl. split; intros H.
  - inversion H as [? ? ? ? ? ? ? ? ? Hd Hk]; subst. apply He in Hd. subst. f_equal. apply G; auto.
  - injection H as -> -> E. constructor; [apply He; auto|apply G; auto].
Qed.

(** With a comparison of values that is equality: equal trees are equal documents, whatever the
    identifiers, the flavors and the calls that made them. *)
Theorem C28_documents : forall T (eqT : T -> T -> bool) F1 (ops1 : list (op T)) t1 l1 F2 ops2 t2 l2,
  (forall a b, eqT a b = true <-> a = b) ->
  finished F1 ops1 t1 l1 -> finished F2 ops2 t2 l2 ->
  (tree_eq F1 F2 eqT t1 t2 = Ok true <-> map erase l1 = map erase l2) /\
  (tree_eq F1 F2 eqT t1 t2 = Ok false <-> map erase l1 <> map erase l2).
Proof.
  intros T eqT F1 ops1 t1 l1 F2 ops2 t2 l2 He H1 H2.
  destruct (C28_equality T eqT F1 ops1 t1 l1 F2 ops2 t2 l2 H1 H2) as (b & E & Hb).
  assert (G : Forall2 (alike eqT) l1 l2 <-> map erase l1 = map erase l2).
  { clear -He. revert l2. induction l1 as [|x l1 IH]; intros [|y l2]; simpl; split; intros H; auto; try discriminate; try (inversion H; fail).
    - inversion H; subst. f_equal; [apply (alike_erase eqT He); auto|apply IH; auto].
    - injection H as E1 E2. constructor; [apply (alike_erase eqT He)|apply IH]; auto. }
  rewrite E. destruct b.
  - assert (A : map erase l1 = map erase l2) by (apply G, Hb; auto). split; split; intros; auto; try discriminate; contradiction.
  - assert (A : map erase l1 <> map erase l2) by (intros A; apply G, Hb in A; discriminate).
    split; split; intros; auto; try discriminate; contradiction.
Qed.
Print Assumptions C28_documents.

(** Hence an equivalence relation. *)
Theorem C28_equivalence : forall T (eqT : T -> T -> bool), (forall a b, eqT a b = true <-> a = b) ->
  forall F1 (ops1 : list (op T)) t1 l1 F2 ops2 t2 l2 F3 ops3 t3 l3,
  finished F1 ops1 t1 l1 -> finished F2 ops2 t2 l2 -> finished F3 ops3 t3 l3 ->
  tree_eq F1 F1 eqT t1 t1 = Ok true /\
  tree_eq F1 F2 eqT t1 t2 = tree_eq F2 F1 eqT t2 t1 /\
  (tree_eq F1 F2 eqT t1 t2 = Ok true -> tree_eq F2 F3 eqT t2 t3 = Ok true -> tree_eq F1 F3 eqT t1 t3 = Ok true).
Proof.
  intros T eqT He F1 ops1 t1 l1 F2 ops2 t2 l2 F3 ops3 t3 l3 H1 H2 H3.
  assert (D : forall F ops t l F' ops' t' l', finished F ops t l -> finished F' ops' t' l' ->
     (tree_eq F F' eqT t t' = Ok true <-> map erase l = map erase l') /\
     (tree_eq F F' eqT t t' = Ok false <-> map erase l <> map erase l')).
  { intros. eapply C28_documents; eauto. }
  split; [|split].
  - apply (D F1 ops1 t1 l1 F1 ops1 t1 l1 H1 H1). auto.
  - destruct (D _ _ _ _ _ _ _ _ H1 H2) as [A1 A2]. destruct (D _ _ _ _ _ _ _ _ H2 H1) as [B1 B2].
    destruct (C28_equality T eqT _ _ _ _ _ _ _ _ H1 H2) as ([|] & E & _); rewrite E; symmetry.
    + apply B1. symmetry. apply A1. auto.
    + apply B2. intros G. symmetry in G. revert G. apply A2. auto.
  - intros E1 E2. apply (D _ _ _ _ _ _ _ _ H1 H2) in E1. apply (D _ _ _ _ _ _ _ _ H2 H3) in E2.
    apply (D _ _ _ _ _ _ _ _ H1 H3). congruence.
Qed.
Print Assumptions C28_equivalence.

(** The same document built with open/close instead of a checkpoint, with other identifiers and
    another flavor. *)
Definition eq_demo_flavor : flavor := Flavor usize_max_32 IxUsize U8 SVec SEmptyVec.
Definition eq_demo_ops : list (op nat) :=
  [ OOpen 10; OToken 1 3; OOpen 11; OToken 2 2; OOpen 12; OClose; OClose; OToken 3 0; OClose;
    OToken 4 4 ].
Definition eq_demo_doc : list (rose nat) :=
  [ Nd 0 KOpen 10 (Span 0 5)
      [ Nd 1 KLeaf 1 (Span 0 3) [];
        Nd 2 KOpen 11 (Span 3 5) [ Nd 3 KLeaf 2 (Span 3 5) []; Nd 4 KOpen 12 (Span 5 5) [] ];
        Nd 5 KLeaf 3 (Span 5 5) [] ];
    Nd 6 KLeaf 4 (Span 5 9) [] ].
Definition eq_demo_tree : tree nat :=
  match build (w_builder (run_world eq_demo_flavor eq_demo_ops)) with Ok t => t | _ => tree_new end.
Example C28_inhabited : finished eq_demo_flavor eq_demo_ops eq_demo_tree eq_demo_doc /\
  tree_eq flavor_default eq_demo_flavor Nat.eqb demo_tree eq_demo_tree = Ok true /\
  tree_eq flavor_default eq_demo_flavor (fun a b => Nat.eqb a b && negb (Nat.eqb a 3)) demo_tree eq_demo_tree = Ok false.
Proof.
  split; [|split; vm_compute; reflexivity]. split; [|split; [|split]].
  - split; auto.
  - unfold document, describes.
    destruct (a_run eq_demo_flavor doc_new eq_demo_ops) as [[a rs]|] eqn:E; [|vm_compute in E; discriminate].
    exists a, rs. split; auto. vm_compute in E. injection E as <- <-. vm_compute. auto.
  - vm_compute. reflexivity.
  - vm_compute. reflexivity.
Qed.
