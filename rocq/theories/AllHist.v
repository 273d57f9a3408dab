(** All histories, also those that misuse checkpoints: an invariant of the link
    table strong enough for every loop in the library to end.

    Every node gets a ghost interval [lo, hi] of rationals and a ghost bound
    [cap] (the upper end of the interval of the place its sibling list lives in).
    Parents enclose, [next] moves right, [first] and [last] move into the node. *)
From Coq Require Import Lia QArith Lqa.
From Verif Require Import Base Pointer Index Tree Builder Hist Node Iter Rep Refine.
Open Scope nat_scope.

Section AllHist.
Context {T : Type}.
Variable F : flavor.
Hypothesis HF : vec_flavor F.
Implicit Types (ns : list (links T)) (l : links T) (b : builder T) (h : heap) (t : tree T).
Implicit Types (lo hi cap : nat -> Q) (i j p x y : nat).

Definition fset (f : nat -> Q) (n : nat) (v : Q) : nat -> Q := fun i => if Nat.eqb i n then v else f i.
Lemma fset_same f n v : fset f n v n = v.
Proof. unfold fset. rewrite Nat.eqb_refl. auto. Qed.
Lemma fset_lt f n v i : i < n -> fset f n v i = f i.
Proof. unfold fset. intros H. destruct (Nat.eqb_spec i n); auto; lia. Qed.
Lemma fset_ne f n v i : i <> n -> fset f n v i = f i.
Proof. unfold fset. intros H. destruct (Nat.eqb_spec i n); auto; lia. Qed.

Record link_inv ns lo hi cap i l : Prop := LI {
  li_parent : forall p, l_parent l = Some p -> p < length ns /\ (lo p < lo i)%Q /\ (cap i <= hi p)%Q;
  li_next : forall y, l_next l = Some y -> i < y /\ (hi i < lo y)%Q /\ (cap y == cap i)%Q /\
              exists ly, nth_error ns y = Some ly /\ l_prev ly = Some i;
  li_prev : forall y, l_prev l = Some y -> y < i /\ (hi y < lo i)%Q /\ (cap y == cap i)%Q /\
              exists ly, nth_error ns y = Some ly /\ l_next ly = Some i;
  li_first : forall y, l_first l = Some y -> y < length ns /\ (lo i < lo y)%Q;
  li_last : forall y, l_last l = Some y -> y < length ns /\ (lo i < lo y)%Q;
  li_lo : (lo i < hi i)%Q;
  li_hi : (hi i < cap i)%Q;
}.

Definition table_inv ns lo hi cap : Prop :=
  forall i l, nth_error ns i = Some l -> link_inv ns lo hi cap i l.

(** The stack of open nodes, innermost first. *)
Fixpoint stack_inv ns (stk : list nat) : Prop :=
  match stk with
  | [] => True
  | x :: s =>
      (exists l, nth_error ns x = Some l /\ l_parent l = hd_error s /\ l_next l = None) /\
      (forall y, In y s -> y < x) /\ stack_inv ns s
  end.

Record builder_inv b lo hi cap stk : Prop := BI {
  bi_table : table_inv (t_nodes (b_tree b)) lo hi cap;
  bi_first : forall x, t_first (b_tree b) = Some x -> x < tree_len (b_tree b);
  bi_last : forall x, t_last (b_tree b) = Some x -> x < tree_len (b_tree b);
  bi_stack : stack_inv (t_nodes (b_tree b)) stk;
  bi_parent : b_parent b = hd_error stk;
  bi_sibling : forall s, b_sibling b = Some s -> ~ In s stk /\
     (exists l, nth_error (t_nodes (b_tree b)) s = Some l /\ l_next l = None) /\
     (forall p, b_parent b = Some p -> (lo p < lo s)%Q /\ (cap s <= hi p)%Q) ;
}.

Definition cell_inv (n : nat) lo hi cap (stk : list nat) (c : cell) : Prop :=
  c_node c <= n /\
  forall p, c_parent c = Some p -> p < c_node c /\
    (c_node c < n -> In p stk -> (lo p < lo (c_node c))%Q /\ (cap (c_node c) <= hi p)%Q).

Record world_inv (w : world T) lo hi cap stk : Prop := WI {
  wi_builder : builder_inv (w_builder w) lo hi cap stk;
  wi_cells : forall a c, nth_error (w_heap w) a = Some c ->
     cell_inv (tree_len (b_tree (w_builder w))) lo hi cap stk c;
  wi_env : forall a, In a (w_env w) -> a < length (w_heap w);
}.

Definition world_ok (w : world T) : Prop := exists lo hi cap stk, world_inv w lo hi cap stk.

Lemma stack_lt ns stk x : stack_inv ns stk -> In x stk -> x < length ns.
Proof.
  induction stk as [|y stk IH]; simpl; [tauto|]. intros [[l [E _]] [_ H]] [<-|Hx]; auto.
  apply nth_error_Some. congruence.
Qed.

(** Open nodes enclose each other. *)
Lemma stack_nested ns lo hi cap : table_inv ns lo hi cap -> forall stk p q,
  stack_inv ns (q :: stk) -> In p (q :: stk) -> (lo p <= lo q)%Q /\ (hi q <= hi p)%Q.
Proof.
  intros HT stk. induction stk as [|y stk IH]; intros p q Hs [<-|Hp]; try (split; lra).
  - destruct Hp.
  - destruct Hs as [[l [E [El _]]] [_ Hs]]. simpl in El. pose proof (HT _ _ E) as HL.
    destruct (li_parent _ _ _ _ _ _ HL _ El) as (_ & H1 & H2).
    pose proof (li_hi _ _ _ _ _ _ HL). destruct (IH p y Hs Hp). split; lra.
Qed.

(** ** Appending a node *)

(** The pointers of [l'] after adding node [n], whose parent field was [par] and prev field [prev]. *)
Definition grown (n : nat) (par prev : option nat) i l l' : Prop :=
  l_parent l' = l_parent l /\ l_prev l' = l_prev l /\
  (l_next l' = l_next l /\ prev <> Some i \/ prev = Some i /\ l_next l' = Some n) /\
  (l_first l' = l_first l \/ par = Some i /\ l_first l' = Some n) /\
  (l_last l' = l_last l \/ par = Some i /\ l_last l' = Some n).

Definition insert_table ns (par prev : option nat) ns' : Prop :=
  length ns' = S (length ns) /\
  (forall i l', nth_error ns' i = Some l' -> i < length ns ->
      exists l, nth_error ns i = Some l /\ grown (length ns) par prev i l l') /\
  (forall l', nth_error ns' (length ns) = Some l' ->
      l_parent l' = par /\ l_prev l' = prev /\ l_next l' = None /\ l_first l' = None /\ l_last l' = None).

Lemma nth_upd {A} (l : list A) i f j :
  nth_error (upd l i f) j = if Nat.eqb i j then option_map f (nth_error l j) else nth_error l j.
Proof.
  destruct (Nat.eqb_spec i j) as [<-|H]; [apply nth_upd_same|apply nth_upd_other; auto].
Qed.

Lemma nth_in {A} (l : list A) i : i < length l -> exists v : A, nth_error l i = Some v.
Proof. intros H. destruct (nth_error l i) eqn:E; eauto. apply nth_error_None in E. lia. Qed.

Lemma nth_lt {A} (l : list A) i (v : A) : nth_error l i = Some v -> i < length l.
Proof. intros E. apply nth_error_Some. congruence. Qed.

Lemma stack_grow ns ns' par prev stk :
  insert_table ns par prev ns' -> (forall s, prev = Some s -> ~ In s stk) ->
  stack_inv ns stk -> stack_inv ns' stk.
Proof.
  intros (HL & H1 & _). induction stk as [|x s IH]; simpl; auto.
  intros Hp [[l [E [El En]]] [Hd Hs]]. split; [|split; auto].
  2:{ apply IH; auto. intros s0 Hs0 Hi. apply (Hp s0 Hs0). auto. }
  assert (Hx : x < length ns) by (eapply nth_lt; eauto).
  destruct (nth_in ns' x) as [l' E']; [lia|].
  destruct (H1 _ _ E' Hx) as (l0 & E0 & G). exists l'. split; auto. destruct G as [-> [_ [[[-> _]|[Hx' _]] _]]]; [split; congruence|].
  exfalso. apply (Hp x Hx'). auto.
Qed.

Lemma grow_inv ns ns' par prev lo hi cap vlo vhi vcap :
  insert_table ns par prev ns' -> table_inv ns lo hi cap ->
  (forall s, prev = Some s -> (exists l, nth_error ns s = Some l /\ l_next l = None) /\
      (hi s < vlo)%Q /\ (cap s == vcap)%Q) ->
  (forall p, par = Some p -> p < length ns /\ (lo p < vlo)%Q /\ (vcap <= hi p)%Q) ->
  (vlo < vhi)%Q -> (vhi < vcap)%Q ->
  table_inv ns' (fset lo (length ns) vlo) (fset hi (length ns) vhi) (fset cap (length ns) vcap).
Proof.
  set (n := length ns). intros (HL & H1 & H2) HT Hprev Hpar Hlo Hhi i l' E'.
  fold n in HL, H1, H2.
  assert (Hi : i < S n) by (rewrite <- HL; eapply nth_lt; eauto).
  destruct (Nat.eq_dec i n) as [->|Hne].
  - destruct (H2 _ E') as (Ep & Eq & En & Ef & El). constructor.
    + intros p Hp. rewrite Ep in Hp. destruct (Hpar p Hp) as (A & B & C).
      rewrite !fset_same, !fset_lt by auto. intuition lia.
    + congruence.
    + intros y Hy. rewrite Eq in Hy. destruct (Hprev y Hy) as ((ly & Ely & _) & B & C).
      assert (A : y < n) by (eapply nth_lt; eauto).
      rewrite !fset_same, !fset_lt by auto. split; [auto|split; [auto|split; [auto|]]].
      destruct (nth_in ns' y) as [ly' Ey']; [lia|]. exists ly'. split; auto.
      destruct (H1 _ _ Ey' A) as (l0 & E0 & _ & _ & [[_ G]|[_ G]] & _); congruence.
    + congruence.
    + congruence.
    + rewrite !fset_same. auto.
    + rewrite !fset_same. auto.
  - assert (Hin : i < n) by lia.
    destruct (H1 _ _ E' Hin) as (l & E & Gp & Gq & Gn & Gf & Gl).
    pose proof (HT _ _ E) as HI. constructor.
    + intros p Hp. rewrite Gp in Hp. destruct (li_parent _ _ _ _ _ _ HI p Hp) as (A & B & C). fold n in A.
      rewrite !fset_lt by auto. intuition lia.
    + intros y Hy. destruct Gn as [[Gn _]|[Gs Gn]].
      * rewrite Gn in Hy. destruct (li_next _ _ _ _ _ _ HI y Hy) as (A & B & C & ly & Ey & Eyp).
        assert (Hyn : y < n) by (eapply nth_lt; eauto). rewrite !fset_lt by auto.
        split; [auto|split; [auto|split; [auto|]]]. destruct (nth_in ns' y) as [ly' Ey']; [lia|].
        destruct (H1 _ _ Ey' Hyn) as (l0 & E0 & _ & G & _). exists ly'. split; auto. congruence.
      * assert (y = n) by congruence. subst y. destruct (Hprev i Gs) as (_ & B & C).
        rewrite !fset_same, !fset_lt by auto. split; [auto|split; [auto|split; [lra|]]].
        destruct (nth_in ns' n) as [ly' Ey']; [lia|]. exists ly'. split; auto.
        destruct (H2 _ Ey') as (_ & -> & _). auto.
    + intros y Hy. rewrite Gq in Hy. destruct (li_prev _ _ _ _ _ _ HI y Hy) as (A & B & C & ly & Ely & En).
      assert (Hyn : y < n) by lia.
      rewrite !fset_lt by auto. split; [auto|split; [auto|split; [auto|]]].
      destruct (nth_in ns' y) as [ly' Ey']; [lia|]. exists ly'. split; auto.
      destruct (H1 _ _ Ey' Hyn) as (l0 & E0 & _ & _ & [[G _]|[G G']] & _); [congruence|].
      destruct (Hprev y G) as ((l1 & El1 & Hn1) & _). congruence.
    + intros y Hy. destruct Gf as [Gf|[Gs Gf]].
      * rewrite Gf in Hy. destruct (li_first _ _ _ _ _ _ HI y Hy) as (A & B). fold n in A.
        rewrite !fset_lt by auto. split; auto. lia.
      * assert (y = n) by congruence. subst y. destruct (Hpar i Gs) as (A & B & C).
        rewrite fset_same, fset_lt by auto. split; auto. lia.
    + intros y Hy. destruct Gl as [Gl|[Gs Gl]].
      * rewrite Gl in Hy. destruct (li_last _ _ _ _ _ _ HI y Hy) as (A & B). fold n in A.
        rewrite !fset_lt by auto. split; auto. lia.
      * assert (y = n) by congruence. subst y. destruct (Hpar i Gs) as (A & B & C).
        rewrite fset_same, fset_lt by auto. split; auto. lia.
    + rewrite !fset_lt by auto. apply (li_lo _ _ _ _ _ _ HI).
    + rewrite !fset_lt by auto. apply (li_hi _ _ _ _ _ _ HI).
Qed.

(** Room for a new node after [prev] in [par]. *)
Lemma room ns lo hi cap par prev :
  table_inv ns lo hi cap ->
  (forall p, par = Some p -> p < length ns) ->
  (forall s, prev = Some s -> (exists l, nth_error ns s = Some l /\ l_next l = None) /\
      (forall p, par = Some p -> (lo p < lo s)%Q /\ (cap s <= hi p)%Q)) ->
  exists vlo vhi vcap,
    (forall s, prev = Some s -> (exists l, nth_error ns s = Some l /\ l_next l = None) /\ (hi s < vlo)%Q /\ (cap s == vcap)%Q) /\
    (forall p, par = Some p -> p < length ns /\ (lo p < vlo)%Q /\ (vcap <= hi p)%Q) /\
    (vlo < vhi)%Q /\ (vhi < vcap)%Q.
Proof.
  intros HT Hp Hs. destruct prev as [s|].
  - destruct (Hs s eq_refl) as [(l & E & En) Hsp].
    pose proof (li_hi _ _ _ _ _ _ (HT _ _ E)) as Hh. pose proof (li_lo _ _ _ _ _ _ (HT _ _ E)) as Hlo.
    exists (hi s + (cap s - hi s) * (1 # 3))%Q, (hi s + (cap s - hi s) * (2 # 3))%Q, (cap s).
    split; [|split; [|split; lra]].
    + intros s0 Hq. injection Hq as <-. split; [eauto|split; lra].
    + intros p Hq. destruct (Hsp p Hq). split; [auto|split; lra].
  - destruct par as [p|].
    + destruct (nth_in ns p (Hp p eq_refl)) as [l E].
      pose proof (li_lo _ _ _ _ _ _ (HT _ _ E)) as Hlo.
      exists (lo p + (hi p - lo p) * (1 # 3))%Q, (lo p + (hi p - lo p) * (2 # 3))%Q, (hi p).
      split; [discriminate|]. split; [|split; lra].
      intros q Hq. injection Hq as <-. split; [auto|split; lra].
    + exists 0%Q, 1%Q, 2%Q. split; [discriminate|]. split; [discriminate|]. split; lra.
Qed.

Definition insert_ok b b' : Prop :=
  insert_table (t_nodes (b_tree b)) (b_parent b) (b_sibling b) (t_nodes (b_tree b')) /\
  b_parent b' = b_parent b /\ b_sibling b' = None /\ b_checkpoint b' = b_checkpoint b /\
  (forall x, t_first (b_tree b') = Some x -> t_first (b_tree b) = Some x \/ x = tree_len (b_tree b)) /\
  (forall x, t_last (b_tree b') = Some x -> t_last (b_tree b) = Some x \/ x = tree_len (b_tree b)).

Definition opt_upd {A} (o : option nat) (f : A -> A) (v : list A) : list A :=
  match o with Some i => upd v i f | None => v end.

Lemma opt_upd_length {A} o (f : A -> A) v : length (opt_upd o f v) = length v.
Proof. destruct o; simpl; auto. apply length_upd. Qed.

Lemma opt_upd_nth {A} o (f : A -> A) v i :
  nth_error (opt_upd o f v) i = (if opt_nat_eqb o (Some i) then option_map f (nth_error v i) else nth_error v i).
Proof. destruct o as [j|]; unfold opt_nat_eqb, opt_upd; auto. apply nth_upd. Qed.

Lemma opt_eqb_some o i : opt_nat_eqb o (Some i) = true <-> o = Some i.
Proof. unfold opt_nat_eqb. destruct o as [j|]; [|split; discriminate]. destruct (Nat.eqb_spec j i); split; congruence. Qed.

Lemma insert_table_spec ns par prev d sp f :
  (forall p, par = Some p -> p < length ns) ->
  (forall s, prev = Some s -> s < length ns) ->
  (forall l, l_parent (f l) = l_parent l /\ l_prev (f l) = l_prev l /\ l_next (f l) = l_next l /\
     (l_first (f l) = l_first l \/ l_first (f l) = Some (length ns)) /\
     (l_last (f l) = l_last l \/ l_last (f l) = Some (length ns))) ->
  insert_table ns par prev
    (opt_upd prev (set_l_next (Some (length ns)))
      (opt_upd par f (ns ++ [Links d sp par prev None None None]))).
Proof.
  intros Hp Hs Hf. split; [|split].
  - rewrite !opt_upd_length, app_length. simpl. lia.
  - intros i l' E Hi. rewrite !opt_upd_nth, nth_error_app1 in E by auto.
    destruct (nth_in ns i Hi) as [l El]. rewrite El in E. simpl in E. exists l. split; auto.
    destruct (Hf l) as (A & B & C & D & G). unfold grown.
    destruct (opt_nat_eqb par (Some i)) eqn:E1, (opt_nat_eqb prev (Some i)) eqn:E2; simpl in E; injection E as <-;
      try apply opt_eqb_some in E1; try apply opt_eqb_some in E2; simpl; repeat split; auto; try tauto;
      left; split; auto; intros G3; apply opt_eqb_some in G3; congruence.
  - intros l' E. rewrite !opt_upd_nth in E.
    assert (opt_nat_eqb prev (Some (length ns)) = false) as G1.
    { destruct (opt_nat_eqb prev _) eqn:G; auto. apply opt_eqb_some in G. apply Hs in G. lia. }
    assert (opt_nat_eqb par (Some (length ns)) = false) as G2.
    { destruct (opt_nat_eqb par _) eqn:G; auto. apply opt_eqb_some in G. apply Hp in G. lia. }
    rewrite G1, G2, nth_error_app2, Nat.sub_diag in E by lia. simpl in E. injection E as <-. simpl. auto 6.
Qed.

Lemma insert_cases b d sp :
  (forall p, b_parent b = Some p -> p < tree_len (b_tree b)) ->
  (forall s, b_sibling b = Some s -> s < tree_len (b_tree b)) ->
  insert F d sp b = (b, Err Overflow) \/
  exists b', insert F d sp b = (b', Ok (tree_len (b_tree b))) /\ insert_ok b b'.
Proof.
  intros Hp Hs. unfold insert. destruct (pointer_new F _) as [n|] eqn:En; [|left; auto]. right.
  assert (n = tree_len (b_tree b)) as ->.
  { rewrite pointer_new_spec in En. destruct (_ <=? _)%N; congruence. }
  unfold tree_push. rewrite (proj1 HF). cbn [storage_push option_map b_tree set_b_sibling b_parent b_sibling].
  eexists. split; [reflexivity|].
  set (n := tree_len (b_tree b)) in *.
  unfold insert_ok. cbn [b_tree set_b_tree b_parent b_sibling b_checkpoint].
  split; [|split; [reflexivity|split; [reflexivity|split; [reflexivity|split]]]].
  - pose proof (insert_table_spec (t_nodes (b_tree b)) (b_parent b) (b_sibling b) d sp
      (fun l => let l := match l_first l with None => set_l_first (Some n) l | Some _ => l end in
                let l := set_l_last (Some n) l in set_l_span (set_end (l_span l) (s_end sp)) l) Hp Hs) as G.
    destruct (b_sibling b), (b_parent b), (t_first (b_tree b)) eqn:Ef; simpl in *; rewrite ?Ef; simpl;
      apply G; intros l; destruct (l_first l) eqn:El; simpl; rewrite ?El;
      (split; [reflexivity|]); (split; [reflexivity|]); (split; [reflexivity|]);
      (split; [first [left; reflexivity|right; reflexivity]|right; reflexivity]).
  - destruct (b_sibling b), (b_parent b), (t_first (b_tree b)) eqn:Ef; simpl in *; rewrite ?Ef; simpl;
      intros x Hx; rewrite ?Ef in Hx; try (injection Hx as <-); auto.
  - destruct (b_sibling b), (b_parent b), (t_first (b_tree b)) eqn:Ef; simpl in *; rewrite ?Ef; simpl;
      intros x Hx; rewrite ?Ef in Hx; try (injection Hx as <-); auto.
Qed.

(** ** What an insertion does to the invariant *)
Lemma bi_parent_lt b lo hi cap stk : builder_inv b lo hi cap stk ->
  forall p, b_parent b = Some p -> p < tree_len (b_tree b).
Proof.
  intros H p E. rewrite (bi_parent _ _ _ _ _ H) in E. eapply stack_lt; [apply (bi_stack _ _ _ _ _ H)|].
  destruct stk; simpl in *; [discriminate|]. injection E as <-. auto.
Qed.

Lemma insert_inv b b' lo hi cap stk h :
  builder_inv b lo hi cap stk -> insert_ok b b' ->
  (forall a c, nth_error h a = Some c -> cell_inv (tree_len (b_tree b)) lo hi cap stk c) ->
  exists lo' hi' cap', builder_inv b' lo' hi' cap' stk /\
    tree_len (b_tree b') = S (tree_len (b_tree b)) /\
    (exists l, nth_error (t_nodes (b_tree b')) (tree_len (b_tree b)) = Some l /\ l_parent l = b_parent b /\ l_next l = None) /\
    (forall a c, nth_error h a = Some c -> cell_inv (tree_len (b_tree b')) lo' hi' cap' stk c).
Proof.
  intros HB (HT & Ep & Es & Ec & Ef & El) HC.
  assert (HT' := HT). destruct HT' as (HL & _ & Hnew).
  pose proof (bi_table _ _ _ _ _ HB) as HI.
  pose proof (bi_parent_lt _ _ _ _ _ HB) as Hpl.
  destruct (room (t_nodes (b_tree b)) lo hi cap (b_parent b) (b_sibling b) HI Hpl
              (fun s Hs => proj2 (bi_sibling _ _ _ _ _ HB s Hs))) as (vlo & vhi & vcap & R1 & R2 & R3 & R4).
  set (n := length (t_nodes (b_tree b))) in *.
  assert (Hn' : tree_len (b_tree b') = S n) by exact HL.
  exists (fset lo n vlo), (fset hi n vhi), (fset cap n vcap). split; [|split; [|split]].
  - constructor.
    + eapply grow_inv; eauto.
    + intros x Hx. rewrite Hn'. apply Ef in Hx. destruct Hx as [Hx| ->].
      * apply (bi_first _ _ _ _ _ HB) in Hx. unfold tree_len in Hx. fold n in Hx. lia.
      * unfold tree_len. fold n. lia.
    + intros x Hx. rewrite Hn'. apply El in Hx. destruct Hx as [Hx| ->].
      * apply (bi_last _ _ _ _ _ HB) in Hx. unfold tree_len in Hx. fold n in Hx. lia.
      * unfold tree_len. fold n. lia.
    + eapply stack_grow; eauto; [|apply (bi_stack _ _ _ _ _ HB)].
      intros s Hs. apply (bi_sibling _ _ _ _ _ HB). auto.
    + rewrite Ep. apply (bi_parent _ _ _ _ _ HB).
    + rewrite Es. discriminate.
  - exact HL.
  - destruct (nth_in (t_nodes (b_tree b')) n) as [l E]; [lia|]. exists l. split; auto. destruct (Hnew _ E) as (? & _ & ? & _). auto.
  - intros a c Ecell. destruct (HC a c Ecell) as [Hc1 Hc2]. unfold tree_len in Hc1, Hc2. fold n in Hc1, Hc2.
    rewrite Hn'. split; [lia|]. intros p Hp. destruct (Hc2 p Hp) as [Hlt Hin]. split; auto.
    intros _ Hst. rewrite !(fset_lt _ _ _ p) by lia.
    destruct (Nat.eq_dec (c_node c) n) as [->|Hne].
    + rewrite !fset_same.
      pose proof (bi_stack _ _ _ _ _ HB) as Hstk. pose proof (bi_parent _ _ _ _ _ HB) as Hb.
      destruct stk as [|q stk]; [destruct Hst|]. simpl in Hb.
      destruct (stack_nested _ _ _ _ HI _ p q Hstk Hst). destruct (R2 q Hb) as (_ & A & B). split; lra.
    + rewrite !fset_ne by auto. apply Hin; auto. lia.
Qed.

(** ** Edits that keep all pointers *)
Definition ptrs_eq l l' : Prop :=
  l_parent l' = l_parent l /\ l_prev l' = l_prev l /\ l_next l' = l_next l /\
  l_first l' = l_first l /\ l_last l' = l_last l.
Definition same_ptrs ns ns' : Prop :=
  length ns' = length ns /\
  forall i l', nth_error ns' i = Some l' -> exists l, nth_error ns i = Some l /\ ptrs_eq l l'.

Lemma same_ptrs_refl ns : same_ptrs ns ns.
Proof. split; auto. intros i l' E. exists l'. unfold ptrs_eq. auto 8. Qed.

Lemma same_ptrs_upd ns i f : (forall l, ptrs_eq l (f l)) -> same_ptrs ns (upd ns i f).
Proof.
  intros Hf. split; [apply length_upd|]. intros j l' E. rewrite nth_upd in E.
  destruct (nth_error ns j) as [l|] eqn:El.
  - exists l. split; auto. destruct (Nat.eqb i j); simpl in E; injection E as <-; auto.
    unfold ptrs_eq. auto 8.
  - destruct (Nat.eqb i j); simpl in E; discriminate.
Qed.

Lemma same_ptrs_fwd ns ns' i l : same_ptrs ns ns' -> nth_error ns i = Some l ->
  exists l', nth_error ns' i = Some l' /\ ptrs_eq l l'.
Proof.
  intros [HL H] E. destruct (nth_in ns' i) as [l' E']; [rewrite HL; eapply nth_lt; eauto|].
  exists l'. split; auto. destruct (H _ _ E') as (l0 & E0 & G). congruence.
Qed.

Lemma same_ptrs_table ns ns' lo hi cap : same_ptrs ns ns' -> table_inv ns lo hi cap -> table_inv ns' lo hi cap.
Proof.
  intros HS HT i l' E'. destruct (proj2 HS _ _ E') as (l & E & A & B & C & D & G).
  destruct (HT _ _ E) as [H1 H2 H3 H4 H5 H6 H7]. pose proof (proj1 HS) as HL.
  constructor; rewrite ?A, ?B, ?C, ?D, ?G, ?HL; auto.
  - intros y Hy. destruct (H2 y Hy) as (a & c & d & ly & Ely & Ep). split; [auto|split; [auto|split; [auto|]]].
    destruct (same_ptrs_fwd _ _ _ _ HS Ely) as (ly' & E2 & _ & G2 & _). exists ly'. split; auto. congruence.
  - intros y Hy. destruct (H3 y Hy) as (a & c & d & ly & Ely & Ep). split; [auto|split; [auto|split; [auto|]]].
    destruct (same_ptrs_fwd _ _ _ _ HS Ely) as (ly' & E2 & _ & _ & G2 & _). exists ly'. split; auto. congruence.
Qed.

Lemma same_ptrs_stack ns ns' stk : same_ptrs ns ns' -> stack_inv ns stk -> stack_inv ns' stk.
Proof.
  intros HS. induction stk as [|x s IH]; simpl; auto. intros [[l [E [El En]]] [Hd Hs]].
  split; [|split; auto]. destruct (same_ptrs_fwd _ _ _ _ HS E) as (l' & E' & G & _ & G' & _). exists l'. split; auto.
  split; congruence.
Qed.

Lemma builder_inv_ext b b' lo hi cap stk :
  builder_inv b lo hi cap stk -> same_ptrs (t_nodes (b_tree b)) (t_nodes (b_tree b')) ->
  t_first (b_tree b') = t_first (b_tree b) -> t_last (b_tree b') = t_last (b_tree b) ->
  b_parent b' = b_parent b -> b_sibling b' = b_sibling b ->
  builder_inv b' lo hi cap stk.
Proof.
  intros [H1 H2 H3 H4 H5 H6] HS E1 E2 E3 E4. pose proof (proj1 HS) as HL.
  constructor; unfold tree_len in *; rewrite ?E1, ?E2, ?E3, ?E4, ?HL; auto.
  - eapply same_ptrs_table; eauto.
  - eapply same_ptrs_stack; eauto.
  - intros s Hs. destruct (H6 s Hs) as (A & (l & El & En) & C). split; auto. split; auto.
    destruct (same_ptrs_fwd _ _ _ _ HS El) as (l' & E' & _ & _ & G' & _). exists l'. split; auto. congruence.
Qed.

(** ** The calls *)
Definition cells_inv h n lo hi cap stk : Prop :=
  forall a c, nth_error h a = Some c -> cell_inv n lo hi cap stk c.

(** State of builder and heap, for some ghost values. *)
Definition ok h b : Prop := exists lo hi cap stk,
  builder_inv b lo hi cap stk /\ cells_inv h (tree_len (b_tree b)) lo hi cap stk.

Lemma ok_ext h b b' : ok h b -> same_ptrs (t_nodes (b_tree b)) (t_nodes (b_tree b')) ->
  t_first (b_tree b') = t_first (b_tree b) -> t_last (b_tree b') = t_last (b_tree b) ->
  b_parent b' = b_parent b -> b_sibling b' = b_sibling b -> ok h b'.
Proof.
  intros (lo & hi & cap & stk & HB & HC) HS E1 E2 E3 E4. exists lo, hi, cap, stk. split.
  - eapply builder_inv_ext; eauto.
  - unfold tree_len. rewrite (proj1 HS). auto.
Qed.

Lemma ok_bounds h b : ok h b ->
  (forall p, b_parent b = Some p -> p < tree_len (b_tree b)) /\
  (forall s, b_sibling b = Some s -> s < tree_len (b_tree b)).
Proof.
  intros (lo & hi & cap & stk & HB & _). split.
  - eapply bi_parent_lt; eauto.
  - intros s Hs. destruct (bi_sibling _ _ _ _ _ HB s Hs) as (_ & (l & E & _) & _). eapply nth_lt; eauto.
Qed.

(** A new leaf, which becomes the sibling. *)
Lemma leaf_ok h b b' : ok h b -> insert_ok b b' -> ok h (set_b_sibling (Some (tree_len (b_tree b))) b').
Proof.
  intros (lo & hi & cap & stk & HB & HC) HI.
  destruct (insert_inv _ _ _ _ _ _ h HB HI HC) as (lo' & hi' & cap' & HB' & HL & (l & El & Epar & Enx) & HC').
  exists lo', hi', cap', stk. split; auto.
  destruct HB' as [H1 H2 H3 H4 H5 H6]. constructor; auto. simpl. intros s Hs. injection Hs as <-.
  split; [|split; [eauto|]].
  { intros Hin. apply (stack_lt _ _ _ (bi_stack _ _ _ _ _ HB)) in Hin. unfold tree_len in Hin. lia. }
  intros p Hp. destruct HI as (_ & E & _). rewrite E in Hp.
  destruct (li_parent _ _ _ _ _ _ (H1 _ _ El) p) as (_ & A & B); [congruence|]. auto.
Qed.

(** A new open node. *)
Lemma opened_ok h b b' : ok h b -> insert_ok b b' -> ok h (set_b_parent (Some (tree_len (b_tree b))) b').
Proof.
  intros (lo & hi & cap & stk & HB & HC) HI.
  destruct (insert_inv _ _ _ _ _ _ h HB HI HC) as (lo' & hi' & cap' & HB' & HL & (l & El & Epar & Enx) & HC').
  set (n := tree_len (b_tree b)) in *.
  assert (Hlt : forall y, In y stk -> y < n).
  { intros y Hy. eapply stack_lt; [apply (bi_stack _ _ _ _ _ HB)|auto]. }
  exists lo', hi', cap', (n :: stk). split.
  - destruct HB' as [H1 H2 H3 H4 H5 H6]. constructor; auto.
    + simpl. split; [|split; auto]. exists l. split; auto. rewrite Epar. split; auto. apply (bi_parent _ _ _ _ _ HB).
    + destruct HI as (_ & _ & Es & _). simpl. rewrite Es. discriminate.
  - intros a c Ec. destruct (HC' a c Ec) as [A B]. destruct (HC a c Ec) as [A0 B0]. fold n in A0, B0.
    split; [auto|]. intros p Hp. destruct (B p Hp) as [B1 B2]. split; auto. simpl. intros Hc [Hin|Hin]; auto.
    subst p. destruct (B0 n Hp). lia.
Qed.

Definition fine (r : result nat) : Prop :=
  match r with Diverge | Err (MissingNode _) | Err FlavorError => False | _ => True end.
Definition fine_unit (r : result unit) : Prop :=
  match r with Diverge | Err (MissingNode _) | Err FlavorError => False | _ => True end.

Lemma open_ok h b d sp : ok h b -> ok h (fst (open_with F d sp b)) /\ fine (snd (open_with F d sp b)).
Proof.
  intros H. destruct (ok_bounds _ _ H) as [Hp Hs]. unfold open_with.
  destruct (insert_cases b d sp Hp Hs) as [->|(b' & -> & HI)]; simpl; auto.
  split; auto. apply opened_ok; auto.
Qed.

Lemma push_index_cases t ix i : exists t', tree_push_index F ix i t = Some t' /\
  t_nodes t' = t_nodes t /\ t_first t' = t_first t /\ t_last t' = t_last t.
Proof.
  unfold tree_push_index. destruct (proj2 HF) as [-> | ->]; simpl; eexists; split; try reflexivity; auto.
Qed.

Lemma same_ptrs_eq ns ns' : ns' = ns -> same_ptrs ns ns'.
Proof. intros ->. apply same_ptrs_refl. Qed.

Lemma token_ok h b d len : ok h b -> ok h (fst (token F d len b)) /\ fine (snd (token F d len b)).
Proof.
  intros H. unfold token.
  assert (G : forall sp b0, ok h b0 ->
    let r := (match insert F d sp b0 with
    | (b, Ok id) =>
      let b := set_b_sibling (Some id) b in
      if len_is_empty F len then (b, Ok id)
      else
        match tree_push_index F (b_cursor b) id (b_tree b) with
        | None => (b, Err FlavorError)
        | Some t => (set_b_tree t b, Ok id)
        end
    | r => r
    end) in ok h (fst r) /\ fine (snd r)).
  { intros sp b0 H0. destruct (ok_bounds _ _ H0) as [Hp Hs].
    destruct (insert_cases b0 d sp Hp Hs) as [->|(b' & -> & HI)]; [simpl; auto|].
    pose proof (leaf_ok _ _ _ H0 HI) as HO. cbv zeta. destruct (len_is_empty F len); [simpl; auto|].
    destruct (push_index_cases (b_tree (set_b_sibling (Some (tree_len (b_tree b0))) b'))
       (b_cursor (set_b_sibling (Some (tree_len (b_tree b0))) b')) (tree_len (b_tree b0))) as (t' & E & E1 & E2 & E3).
    rewrite E. simpl. split; auto. eapply ok_ext; [exact HO|..]; simpl; auto. apply same_ptrs_eq; auto. }
  cbv zeta in G. cbv zeta. destruct (len_is_empty F len) eqn:El.
  - apply G. auto.
  - destruct (ix_checked_add_len F (b_cursor b) len) as [c|]; [|simpl; auto].
    apply G. eapply ok_ext; [exact H|..]; simpl; auto. apply same_ptrs_refl.
Qed.

Lemma ptrs_span (f : links T -> span) l : ptrs_eq l (set_l_span (f l) l).
Proof. unfold ptrs_eq, set_l_span. simpl. auto 8. Qed.

Lemma token_with_ok h b d sp : ok h b -> ok h (fst (token_with F d sp b)) /\ fine (snd (token_with F d sp b)).
Proof.
  intros H. unfold token_with. destruct (ok_bounds _ _ H) as [Hp Hs].
  destruct (insert_cases b d sp Hp Hs) as [->|(b' & -> & HI)]; [simpl; auto|].
  pose proof (leaf_ok _ _ _ H HI) as HO.
  set (b1 := set_b_sibling (Some (tree_len (b_tree b))) b') in *. cbv zeta.
  destruct (push_index_cases (b_tree b1) (s_start sp) (tree_len (b_tree b))) as (t' & E & E1 & E2 & E3).
  rewrite E. simpl. split; auto. destruct (b_parent b') as [p|] eqn:Ep.
  - eapply ok_ext; [exact HO|..]; simpl; auto. rewrite E1. apply same_ptrs_upd. intros l. apply (ptrs_span (fun l => span_join (l_span l) sp)).
  - eapply ok_ext; [exact HO|..]; simpl; auto. apply same_ptrs_eq; auto.
Qed.

Lemma close_ok h b : ok h b -> ok h (fst (close b)) /\ fine_unit (snd (close b)).
Proof.
  intros (lo & hi & cap & stk & HB & HC). unfold close.
  destruct HB as [H1 H2 H3 H4 H5 H6].
  destruct (b_parent b) as [head|] eqn:Ep; [|simpl; split; auto; exists lo, hi, cap, stk; split; auto; constructor; auto].
  2:{ rewrite Ep. auto. }
  2:{ rewrite Ep. auto. }
  destruct stk as [|h0 stk]; [discriminate|]. simpl in H5. injection H5 as <-.
  destruct H4 as [[l [E [El En]]] [Hd Hs]]. cbv zeta. cbn [b_tree set_b_parent set_b_sibling]. rewrite E.
  assert (HC' : cells_inv h (tree_len (b_tree b)) lo hi cap stk).
  { intros a c Ec. destruct (HC a c Ec) as [A B]. split; auto. intros p Hp. destruct (B p Hp) as [B1 B2].
    split; auto. intros; apply B2; simpl; auto. }
  assert (G : forall q, hd_error stk = q -> ok h (set_b_parent q (set_b_sibling (Some head) (set_b_parent None b)))).
  { intros q Hq. exists lo, hi, cap, stk. split; [|auto]. constructor; simpl; auto.
    intros s Hsib. injection Hsib as <-. split; [intros Hin; apply Hd in Hin; lia|]. split; [eauto|].
    intros p Hp. destruct (li_parent _ _ _ _ _ _ (H1 _ _ E) p) as (_ & A & B); [congruence|]. auto. }
  destruct (l_parent l) as [id|] eqn:Eid.
  - destruct (li_parent _ _ _ _ _ _ (H1 _ _ E) id Eid) as (Hlt & _). destruct (nth_in _ _ Hlt) as [lp Elp].
    rewrite Elp. simpl. split; auto. eapply ok_ext; [apply (G (Some id)); auto|..]; simpl; auto.
    apply same_ptrs_upd. intros l1. apply (ptrs_span (fun q : links T => span_join (l_span q) (l_span l))).
  - simpl. split; auto. eapply ok_ext; [apply (G None); auto|..]; simpl; auto. apply same_ptrs_refl.
Qed.

Lemma checkpoint_ok h b : ok h b ->
  let '(h', b', r) := checkpoint F h b in
  ok h' b' /\ fine r /\ length h <= length h' /\ (forall a, r = Ok a -> a < length h').
Proof.
  intros H. unfold checkpoint. destruct (pointer_new F _) as [n|] eqn:En.
  2:{ repeat split; auto. discriminate. }
  assert (n = tree_len (b_tree b)) as ->.
  { rewrite pointer_new_spec in En. destruct (_ <=? _)%N; congruence. }
  assert (G : ok (h ++ [Cell (tree_len (b_tree b)) (b_parent b)]) (set_b_checkpoint (Some (length h)) b)).
  { destruct (ok_bounds _ _ H) as [Hp _]. destruct H as (lo & hi & cap & stk & HB & HC).
    exists lo, hi, cap, stk. split.
    - eapply builder_inv_ext; [exact HB|..]; simpl; auto. apply same_ptrs_refl.
    - intros a c Ec. simpl. destruct (Nat.lt_ge_cases a (length h)) as [Ha|Ha].
      + rewrite nth_error_app1 in Ec by auto. eauto.
      + rewrite nth_error_app2 in Ec by auto. destruct (a - length h) as [|k]; simpl in Ec.
        * injection Ec as <-. split; simpl; [auto|]. intros p Hpp. split; [auto|]. lia.
        * destruct k; discriminate. }
  assert (Ln : length (h ++ [Cell (tree_len (b_tree b)) (b_parent b)]) = S (length h)) by (rewrite app_length; simpl; lia).
  assert (G2 : ok (h ++ [Cell (tree_len (b_tree b)) (b_parent b)]) (set_b_checkpoint (Some (length h)) b) /\
     fine (Ok (length h)) /\ length h <= length (h ++ [Cell (tree_len (b_tree b)) (b_parent b)]) /\
     (forall a, Ok (length h) = Ok a -> a < length (h ++ [Cell (tree_len (b_tree b)) (b_parent b)]))).
  { split; [auto|]. split; [exact I|]. split; [lia|]. intros a Ea. injection Ea as <-. lia. }
  destruct (b_checkpoint b) as [a|]; [|exact G2].
  destruct (nth_error h a) as [c|] eqn:Ea; [|exact G2].
  destruct (_ && _); [|exact G2].
  split; [auto|]. split; [exact I|]. split; [auto|]. intros a0 E0. injection E0 as <-. eapply nth_lt; eauto.
Qed.

(** ** close_at *)
Inductive nchain ns : nat -> list nat -> nat -> Prop :=
| nc_end x l : nth_error ns x = Some l -> l_next l = None -> nchain ns x [x] x
| nc_step x l y C z : nth_error ns x = Some l -> l_next l = Some y -> nchain ns y C z ->
    nchain ns x (x :: C) z.

Lemma chain_exists ns lo hi cap : table_inv ns lo hi cap -> forall k x, length ns - x <= k -> x < length ns ->
  exists C z, nchain ns x C z /\ length C + x <= length ns.
Proof.
  intros HT. induction k as [|k IH]; intros x Hk Hx; [lia|].
  destruct (nth_in ns x Hx) as [l E]. destruct (l_next l) as [y|] eqn:En.
  - destruct (li_next _ _ _ _ _ _ (HT _ _ E) y En) as (A & _ & _ & ly & Ey & _).
    assert (y < length ns) by (eapply nth_lt; eauto).
    destruct (IH y) as (C & z & HC & HL); [lia|auto|]. exists (x :: C), z. split; [econstructor; eauto|simpl; lia].
  - exists [x], x. split; [econstructor; eauto|simpl; lia].
Qed.

Lemma chain_inv ns x C z : nchain ns x C z -> exists l, nth_error ns x = Some l /\
  (l_next l = None /\ C = [x] /\ z = x \/
   exists y C', l_next l = Some y /\ C = x :: C' /\ nchain ns y C' z).
Proof. intros H; inversion H; subst; eauto 10. Qed.

Lemma chain_head ns x C z : nchain ns x C z -> In x C.
Proof. intros H; inversion H; simpl; auto. Qed.
Lemma chain_last ns x C z : nchain ns x C z -> In z C.
Proof. induction 1; simpl; auto. Qed.

Lemma chain_facts ns lo hi cap x C z : table_inv ns lo hi cap -> nchain ns x C z ->
  forall c, In c C -> x <= c /\ c < length ns /\ (lo x <= lo c)%Q /\ (hi c <= hi z)%Q /\ (cap c == cap x)%Q.
Proof.
  intros HT. induction 1 as [x l E En|x l y C z E En HC IH]; simpl; intros c [<-|Hc].
  - split; [auto|]. split; [eapply nth_lt; eauto|]. split; [lra|]. split; lra.
  - destruct Hc.
  - destruct (li_next _ _ _ _ _ _ (HT _ _ E) y En) as (A & B & D & _).
    destruct (IH z (chain_last _ _ _ _ HC)) as (_ & G & _).
    destruct (IH y (chain_head _ _ _ _ HC)) as (_ & _ & _ & Q1 & _).
    split; [auto|]. split; [eapply nth_lt; eauto|]. split; [lra|]. split; [|lra].
    destruct (nth_in ns y) as [ly Ely]; [destruct (IH y (chain_head _ _ _ _ HC)) as (_ & G2 & _); auto|].
    pose proof (li_lo _ _ _ _ _ _ (HT _ _ Ely)). lra.
  - destruct (li_next _ _ _ _ _ _ (HT _ _ E) y En) as (A & B & D & _).
    destruct (IH c Hc) as (P1 & P2 & P3 & P4 & P5). pose proof (li_lo _ _ _ _ _ _ (HT _ _ E)).
    split; [lia|]. split; [auto|]. split; [lra|]. split; lra.
Qed.

Lemma chain_next ns x C z : nchain ns x C z -> forall c l y, In c C -> nth_error ns c = Some l ->
  l_next l = Some y -> In y C.
Proof.
  induction 1 as [x l E En|x l y C z E En HC IH]; simpl; intros c l' y' [<-|Hc] E' En'; try tauto; try congruence.
  - right. assert (y' = y) as -> by congruence. eapply chain_head; eauto.
  - right. eauto.
Qed.

Lemma chain_pred ns lo hi cap x C z : table_inv ns lo hi cap -> nchain ns x C z ->
  forall c, In c C -> c = x \/ exists c' l, In c' C /\ nth_error ns c = Some l /\ l_prev l = Some c'.
Proof.
  intros HT. induction 1 as [x l E En|x l y C z E En HC IH]; simpl; intros c [<-|Hc]; auto; try tauto.
  destruct (IH c Hc) as [->|(c' & l' & H1 & H2 & H3)]; right.
  - destruct (li_next _ _ _ _ _ _ (HT _ _ E) y En) as (_ & _ & _ & ly & Ely & Ep). exists x, ly. auto.
  - exists c', l'. auto.
Qed.

Definition reparent (new : nat) (C : list nat) i l : links T :=
  if in_dec Nat.eq_dec i C then set_l_parent (Some new) l else l.

Lemma chain_same ns ns' x C z : nchain ns x C z ->
  (forall i l, nth_error ns i = Some l -> exists l', nth_error ns' i = Some l' /\ l_next l' = l_next l) ->
  nchain ns' x C z.
Proof.
  induction 1 as [x l E En|x l y C z E En HC IH]; intros H.
  - destruct (H _ _ E) as (l' & E' & En'). econstructor; eauto. congruence.
  - destruct (H _ _ E) as (l' & E' & En'). econstructor; eauto. congruence.
Qed.

Lemma restructure_spec new x C z : forall fuel ns, nchain ns x C z -> length C <= fuel ->
  exists ns' e, restructure fuel new x ns = (ns', Ok (z, e)) /\ length ns' = length ns /\
    forall i, nth_error ns' i = option_map (reparent new C i) (nth_error ns i).
Proof.
  intros fuel ns H. revert fuel.
  assert (G : forall fuel m, (forall i l, nth_error ns i = Some l -> exists l', nth_error m i = Some l' /\ l_next l' = l_next l) ->
    length C <= fuel -> exists ns' e, restructure fuel new x m = (ns', Ok (z, e)) /\ length ns' = length m /\
    forall i, nth_error ns' i = option_map (reparent new C i) (nth_error m i)).
  2:{ intros fuel Hf. apply (G fuel ns); eauto. }
  induction H as [x l E En|x l y C z E En HC IH]; intros fuel m Hm Hf; (destruct fuel as [|fuel]; [simpl in Hf; lia|]);
    destruct (Hm _ _ E) as (l' & E' & En'); simpl; rewrite E', En', En.
  - eexists. eexists. split; [reflexivity|]. rewrite length_upd. split; auto. intros i. rewrite nth_upd.
    unfold reparent. destruct (in_dec Nat.eq_dec i [x]) as [Hi|Hi]; simpl in Hi.
    + destruct Hi as [<-|[]]. rewrite Nat.eqb_refl. auto.
    + destruct (Nat.eqb_spec x i); [tauto|]. destruct (nth_error m i); auto.
  - destruct (IH fuel (upd m x (set_l_parent (Some new)))) as (ns' & e & E1 & E2 & E3).
    + intros i l0 E0. destruct (Hm _ _ E0) as (l1 & E1 & En1). rewrite nth_upd, E1.
      destruct (Nat.eqb x i); simpl; eexists; split; try reflexivity; auto.
    + simpl in Hf; lia.
    + rewrite E1. exists ns', e. split; auto. rewrite length_upd in E2. split; auto.
      intros i. rewrite E3, nth_upd. unfold reparent.
      destruct (in_dec Nat.eq_dec i C) as [Hi|Hi], (in_dec Nat.eq_dec i (x :: C)) as [Hi'|Hi']; simpl in Hi';
        destruct (Nat.eqb_spec x i) as [Hx|Hx]; try tauto; destruct (nth_error m i); simpl; auto.
Qed.

Definition close_table ns id (C : list nat) z (par prev : option nat) ns' : Prop :=
  length ns' = S (length ns) /\
  (forall i l', nth_error ns' i = Some l' -> i < length ns ->
     exists l, nth_error ns i = Some l /\
       l_parent l' = (if in_dec Nat.eq_dec i C then Some (length ns) else l_parent l) /\
       l_prev l' = (if Nat.eqb i id then None else l_prev l) /\
       (l_next l' = l_next l /\ prev <> Some i \/ prev = Some i /\ l_next l' = Some (length ns)) /\
       (l_first l' = l_first l \/ par = Some i /\ l_first l' = Some (length ns)) /\
       (l_last l' = l_last l \/ par = Some i /\ l_last l' = Some (length ns))) /\
  (forall l', nth_error ns' (length ns) = Some l' ->
     l_parent l' = par /\ l_prev l' = prev /\ l_next l' = None /\ l_first l' = Some id /\ l_last l' = Some z).

Lemma close_inv ns ns' id lid C z lo hi cap vlo vhi :
  close_table ns id C z (l_parent lid) (l_prev lid) ns' -> table_inv ns lo hi cap ->
  nth_error ns id = Some lid -> nchain ns id C z ->
  (forall p, l_parent lid = Some p -> (lo p < vlo)%Q) ->
  (forall y, l_prev lid = Some y -> (hi y < vlo)%Q) ->
  (vlo < lo id)%Q -> (hi z < vhi)%Q -> (vhi < cap id)%Q ->
  table_inv ns' (fset lo (length ns) vlo) (fset hi (length ns) vhi)
    (fset (fun i => if in_dec Nat.eq_dec i C then vhi else cap i) (length ns) (cap id)).
Proof.
  set (n := length ns). intros (HL & H1 & H2) HT Eid HC Vp Vy V1 V2 V3 i l' E'.
  fold n in HL, H1, H2.
  pose proof (HT _ _ Eid) as HI. pose proof (chain_facts _ _ _ _ _ _ _ HT HC) as HF0.
  pose proof (chain_next _ _ _ _ HC) as HN. pose proof (chain_pred _ _ _ _ _ _ _ HT HC) as HP.
  assert (Hidn : id < n) by (eapply nth_lt; eauto).
  destruct (HF0 z (chain_last _ _ _ _ HC)) as (_ & Hzn & Hzlo & _).
  assert (Hloz : (lo id < hi z)%Q).
  { destruct (nth_in ns z Hzn) as [lz Ez]. pose proof (li_lo _ _ _ _ _ _ (HT _ _ Ez)). lra. }
  assert (Hi : i < S n) by (rewrite <- HL; eapply nth_lt; eauto).
  destruct (Nat.eq_dec i n) as [->|Hne].
  - destruct (H2 _ E') as (Ep & Eq & En & Ef & El). constructor.
    + intros p Hp. rewrite Ep in Hp. destruct (li_parent _ _ _ _ _ _ HI p Hp) as (A & B & D). fold n in A.
      rewrite !fset_same, !fset_lt by auto. split; [lia|]. split; [auto|]. auto.
    + congruence.
    + intros y Hy. rewrite Eq in Hy. destruct (li_prev _ _ _ _ _ _ HI y Hy) as (A & B & D & ly & Ely & Eln).
      assert (Hyn : y < n) by lia. rewrite !fset_same, !fset_lt by auto.
      split; [lia|]. split; [auto|]. split.
      { destruct (in_dec Nat.eq_dec y C) as [Hin|_]; [|auto]. apply HF0 in Hin. lia. }
      destruct (nth_in ns' y) as [ly' Ey']; [lia|]. exists ly'. split; auto.
      destruct (H1 _ _ Ey' Hyn) as (l0 & E0 & _ & _ & [[_ G]|[_ G]] & _); congruence.
    + intros y Hy. assert (y = id) as -> by congruence. rewrite fset_same, fset_lt by auto. split; [lia|auto].
    + intros y Hy. assert (y = z) as -> by congruence. rewrite fset_same, fset_lt by auto. split; [lia|lra].
    + rewrite !fset_same. lra.
    + rewrite !fset_same. auto.
  - assert (Hin : i < n) by lia.
    destruct (H1 _ _ E' Hin) as (l & E & Gp & Gq & Gn & Gf & Gl).
    pose proof (HT _ _ E) as HJ. constructor.
    + intros p Hp. rewrite Gp in Hp. rewrite !(fset_lt _ _ _ i) by auto.
      destruct (in_dec Nat.eq_dec i C) as [Hc|Hc].
      * injection Hp as <-. rewrite !fset_same. destruct (HF0 i Hc) as (_ & _ & A & _).
        split; [lia|]. split; lra.
      * destruct (li_parent _ _ _ _ _ _ HJ p Hp) as (A & B & D). fold n in A. rewrite !fset_lt by auto.
        split; [lia|auto].
    + intros y Hy. rewrite !(fset_lt _ _ _ i) by auto. destruct Gn as [[Gn Gne]|[Gs Gn]].
      * rewrite Gn in Hy. destruct (li_next _ _ _ _ _ _ HJ y Hy) as (A & B & D & ly & Ey & Eyp).
        assert (Hyn : y < n) by (eapply nth_lt; eauto). rewrite !fset_lt by auto.
        assert (Hyid : y <> id) by (intros ->; congruence).
        split; [auto|]. split; [auto|]. split.
        { destruct (in_dec Nat.eq_dec i C) as [Hc|Hc], (in_dec Nat.eq_dec y C) as [Hc'|Hc']; try lra.
          - exfalso. apply Hc'. eapply HN; eauto.
          - exfalso. destruct (HP y Hc') as [?|(c' & l0 & P1 & P2 & P3)]; [congruence|].
            assert (c' = i) by congruence. congruence. }
        destruct (nth_in ns' y) as [ly' Ey']; [lia|]. exists ly'. split; auto.
        destruct (H1 _ _ Ey' Hyn) as (l0 & E0 & _ & G & _). rewrite G.
        destruct (Nat.eqb_spec y id); congruence.
      * assert (y = n) by congruence. subst y. rewrite !fset_same.
        destruct (li_prev _ _ _ _ _ _ HI i Gs) as (A & B & D & _).
        split; [auto|]. split; [auto|]. split.
        { destruct (in_dec Nat.eq_dec i C) as [Hc|Hc]; [apply HF0 in Hc; lia|lra]. }
        destruct (nth_in ns' n) as [ly' Ey']; [lia|]. exists ly'. split; auto.
        destruct (H2 _ Ey') as (_ & -> & _). auto.
    + intros y Hy. rewrite Gq in Hy. destruct (Nat.eqb_spec i id) as [->|Hid]; [discriminate|].
      destruct (li_prev _ _ _ _ _ _ HJ y Hy) as (A & B & D & ly & Ely & En).
      assert (Hyn : y < n) by lia. rewrite !fset_lt by auto. split; [auto|]. split; [auto|]. split.
      { destruct (in_dec Nat.eq_dec i C) as [Hc|Hc], (in_dec Nat.eq_dec y C) as [Hc'|Hc']; try lra.
        - exfalso. destruct (HP i Hc) as [?|(c' & l0 & P1 & P2 & P3)]; [congruence|].
          assert (c' = y) by congruence. congruence.
        - exfalso. apply Hc. eapply HN; eauto. }
      destruct (nth_in ns' y) as [ly' Ey']; [lia|]. exists ly'. split; auto.
      destruct (H1 _ _ Ey' Hyn) as (l0 & E0 & _ & _ & [[G _]|[G G']] & _); [congruence|].
      exfalso. destruct (li_prev _ _ _ _ _ _ HI y G) as (_ & _ & _ & l1 & El1 & Hn1). congruence.
    + intros y Hy. rewrite (fset_lt _ _ _ i) by auto. destruct Gf as [Gf|[Gs Gf]].
      * rewrite Gf in Hy. destruct (li_first _ _ _ _ _ _ HJ y Hy) as (A & B). fold n in A.
        rewrite !fset_lt by auto. split; auto. lia.
      * assert (y = n) by congruence. subst y. rewrite fset_same. split; [lia|auto].
    + intros y Hy. rewrite (fset_lt _ _ _ i) by auto. destruct Gl as [Gl|[Gs Gl]].
      * rewrite Gl in Hy. destruct (li_last _ _ _ _ _ _ HJ y Hy) as (A & B). fold n in A.
        rewrite !fset_lt by auto. split; auto. lia.
      * assert (y = n) by congruence. subst y. rewrite fset_same. split; [lia|auto].
    + rewrite !fset_lt by auto. apply (li_lo _ _ _ _ _ _ HJ).
    + rewrite !fset_lt by auto. destruct (in_dec Nat.eq_dec i C) as [Hc|Hc].
      * destruct (HF0 i Hc) as (_ & _ & _ & A & _). lra.
      * apply (li_hi _ _ _ _ _ _ HJ).
Qed.

Lemma below (a : Q) (o1 o2 o3 : option nat) (f1 f2 f3 : nat -> Q) :
  (forall x, o1 = Some x -> (f1 x < a)%Q) -> (forall x, o2 = Some x -> (f2 x < a)%Q) ->
  (forall x, o3 = Some x -> (f3 x < a)%Q) ->
  exists v, (v < a)%Q /\ (forall x, o1 = Some x -> (f1 x < v)%Q) /\ (forall x, o2 = Some x -> (f2 x < v)%Q) /\
    (forall x, o3 = Some x -> (f3 x < v)%Q).
Proof.
  intros H1 H2 H3.
  assert (B : forall (o : option nat) (f : nat -> Q) (c : Q), (c < a)%Q -> (forall x, o = Some x -> (f x < a)%Q) ->
    exists v, (v < a)%Q /\ (c < v)%Q /\ forall x, o = Some x -> (f x < v)%Q).
  { intros o f c Hc H. destruct o as [x|].
    - specialize (H x eq_refl). destruct (Qlt_le_dec (f x) c).
      + exists ((c + a) * (1 # 2))%Q. split; [lra|]. split; [lra|]. intros y Hy. injection Hy as <-. lra.
      + exists ((f x + a) * (1 # 2))%Q. split; [lra|]. split; [lra|]. intros y Hy. injection Hy as <-. lra.
    - exists ((c + a) * (1 # 2))%Q. split; [lra|]. split; [lra|]. discriminate. }
  destruct (B o1 f1 (a - 1)%Q) as (v1 & A1 & _ & C1); [lra|auto|].
  destruct (B o2 f2 v1) as (v2 & A2 & B2 & C2); [lra|auto|].
  destruct (B o3 f3 v2) as (v3 & A3 & B3 & C3); [lra|auto|].
  exists v3. split; [auto|]. split; [|split].
  - intros x Hx. specialize (C1 x Hx). lra.
  - intros x Hx. specialize (C2 x Hx). lra.
  - intros x Hx. specialize (C3 x Hx). lra.
Qed.

Lemma close_table_spec ns m id C z par prev d sp f :
  (forall p, par = Some p -> p < length ns) ->
  (forall y, prev = Some y -> y < length ns) ->
  length m = length ns ->
  (forall i, nth_error m i = option_map (fun l =>
      let l := if Nat.eqb i id then set_l_prev None l else l in reparent (length ns) C i l) (nth_error ns i)) ->
  (forall l, l_parent (f l) = l_parent l /\ l_prev (f l) = l_prev l /\ l_next (f l) = l_next l /\
     (l_first (f l) = l_first l \/ l_first (f l) = Some (length ns)) /\
     (l_last (f l) = l_last l \/ l_last (f l) = Some (length ns))) ->
  close_table ns id C z par prev
    (opt_upd prev (set_l_next (Some (length ns))) (opt_upd par f m) ++
      [Links d sp par prev None (Some id) (Some z)]).
Proof.
  intros Hp Hs HL Hm Hf. split; [|split].
  - rewrite app_length, !opt_upd_length. simpl. lia.
  - intros i l' E Hi. rewrite nth_error_app1 in E by (rewrite !opt_upd_length; lia).
    rewrite !opt_upd_nth, Hm in E.
    destruct (nth_in ns i Hi) as [l El]. rewrite El in E. simpl in E. exists l. split; auto.
    set (l1 := if Nat.eqb i id then set_l_prev None l else l) in *.
    assert (A1 : l_parent l1 = l_parent l /\ l_next l1 = l_next l /\ l_first l1 = l_first l /\
                 l_last l1 = l_last l /\ l_prev l1 = if Nat.eqb i id then None else l_prev l).
    { unfold l1. destruct (Nat.eqb i id); simpl; auto 8. }
    set (l2 := reparent (length ns) C i l1) in *.
    assert (A2 : l_parent l2 = (if in_dec Nat.eq_dec i C then Some (length ns) else l_parent l) /\ l_next l2 = l_next l /\ l_first l2 = l_first l /\
                 l_last l2 = l_last l /\ l_prev l2 = if Nat.eqb i id then None else l_prev l).
    { unfold l2, reparent. destruct A1 as (B1 & B2 & B3 & B4 & B5).
      destruct (in_dec Nat.eq_dec i C); simpl; rewrite ?B1, ?B2, ?B3, ?B4, ?B5; auto 8. }
    clearbody l1 l2. clear A1. destruct A2 as (B1 & B2 & B3 & B4 & B5).
    destruct (Hf l2) as (D1 & D2 & D3 & D4 & D5).
    rewrite B1 in D1. rewrite B5 in D2. rewrite B2 in D3. rewrite B3 in D4. rewrite B4 in D5.
    destruct (opt_nat_eqb par (Some i)) eqn:E1, (opt_nat_eqb prev (Some i)) eqn:E2; simpl in E; injection E as <-;
      try apply opt_eqb_some in E1; try apply opt_eqb_some in E2; simpl; repeat split; auto; try tauto;
      left; split; auto; intros G3; apply opt_eqb_some in G3; congruence.
  - intros l' E. assert (G : length ns = length (opt_upd prev (set_l_next (Some (length ns))) (opt_upd par f m)))
      by (rewrite !opt_upd_length; auto).
    rewrite nth_error_app2 in E by lia. rewrite <- G, Nat.sub_diag in E. simpl in E. injection E as <-. simpl. auto 8.
Qed.

(** The three outcomes of a close_at on a good state. *)
Definition wrapped h a b (id : nat) (lid : links T) (h' : heap) (b' : builder T) : Prop :=
  exists C z, nchain (t_nodes (b_tree b)) id C z /\
    close_table (t_nodes (b_tree b)) id C z (l_parent lid) (l_prev lid) (t_nodes (b_tree b')) /\
    h' = upd h a (fun _ => Cell (tree_len (b_tree b)) (l_parent lid)) /\
    b_parent b' = b_parent b /\ b_sibling b' = Some (tree_len (b_tree b)) /\
    (forall x, t_first (b_tree b') = Some x -> t_first (b_tree b) = Some x \/ x = tree_len (b_tree b)) /\
    t_last (b_tree b') = t_last (b_tree b).

Lemma close_at_cases h b a c d osp : ok h b -> nth_error h a = Some c ->
  (exists e, close_at_gen F a d osp h b = (h, b, Err e) /\
     (e = CloseAtError /\ c_parent c <> b_parent b \/
      e = Overflow /\ c_parent c = b_parent b /\ pointer_new F (tree_len (b_tree b)) = None)) \/
  (exists b', close_at_gen F a d osp h b = (h, set_b_sibling (Some (tree_len (b_tree b))) b', Ok (tree_len (b_tree b))) /\
     insert_ok b b') \/
  (exists lid h' b', c_parent c = b_parent b /\ nth_error (t_nodes (b_tree b)) (c_node c) = Some lid /\
     close_at_gen F a d osp h b = (h', b', Ok (tree_len (b_tree b))) /\
     wrapped h a b (c_node c) lid h' b').
Proof.
  intros H Ea. unfold close_at_gen. rewrite Ea.
  destruct (opt_nat_eqb (c_parent c) (b_parent b)) eqn:Ep; cbn [negb].
  2:{ left. exists CloseAtError. split; auto. left. split; auto. intros E. rewrite E in Ep.
      unfold opt_nat_eqb in Ep. destruct (b_parent b); [rewrite Nat.eqb_refl in Ep|]; discriminate. }
  assert (Hpar : c_parent c = b_parent b).
  { unfold opt_nat_eqb in Ep. destruct (c_parent c) as [u|], (b_parent b) as [v|]; try discriminate; auto.
    destruct (Nat.eqb_spec u v); congruence. }
  destruct (pointer_new F _) as [n|] eqn:En; [|left; exists Overflow; auto].
  assert (n = tree_len (b_tree b)) as ->.
  { rewrite pointer_new_spec in En. destruct (_ <=? _)%N; congruence. }
  destruct (ok_bounds _ _ H) as [Hpl Hsl]. destruct H as (lo & hi & cap & stk & HB & HC).
  set (id := c_node c). set (n := tree_len (b_tree b)) in *.
  destruct (nth_error (t_nodes (b_tree b)) id) as [lid|] eqn:Eid.
  - right; right.
    pose proof (bi_table _ _ _ _ _ HB) as HT. pose proof (HT _ _ Eid) as HI.
    assert (Hid : id < n) by (eapply nth_lt; eauto).
    destruct (chain_exists _ _ _ _ HT (length (t_nodes (b_tree b)) - id) id) as (C & z & Hch & HlC); auto.
    (* the table after re-parenting *)
    set (m0 := upd (t_nodes (b_tree b)) id (fun l => set_l_prev None (set_l_parent (Some n) l))).
    assert (HR : exists m e, match l_next lid with
        | Some next => restructure (S n) n next m0
        | None => (m0, Ok (id, s_end (l_span lid))) end = (m, Ok (z, e)) /\ length m = n /\
        forall i, nth_error m i = option_map (fun l =>
          let l := if Nat.eqb i id then set_l_prev None l else l in reparent n C i l) (nth_error (t_nodes (b_tree b)) i)).
    { destruct (chain_inv _ _ _ _ Hch) as (lx & Ex & [(Enx & HCe & Hze)|(y & C' & Enx & HCe & Hch')]);
        assert (lx = lid) by congruence; subst lx; rewrite HCe in *; clear HCe; rewrite Enx.
      - rewrite Hze. exists m0. eexists. split; [reflexivity|].
        split; [apply length_upd|]. intros i. unfold m0. rewrite nth_upd. unfold reparent.
        destruct (in_dec Nat.eq_dec i [id]) as [Hi|Hi]; simpl in Hi.
        + destruct Hi as [<-|[]]. rewrite Nat.eqb_refl. destruct (nth_error _ id); auto.
        + destruct (Nat.eqb_spec id i); [tauto|]. destruct (Nat.eqb_spec i id); [congruence|].
          destruct (nth_error _ i); auto.
      - assert (Hch2 : nchain m0 y C' z).
        { eapply chain_same; [exact Hch'|]. intros i l E. unfold m0. rewrite nth_upd, E.
          destruct (Nat.eqb id i); simpl; eexists; split; try reflexivity. }
        destruct (restructure_spec n y C' z (S n) m0 Hch2) as (m & e & E1 & E2 & E3).
        { simpl in HlC. unfold n, tree_len. lia. }
        assert (Hny : ~ In id C').
        { intros Hin. pose proof (chain_facts _ _ _ _ _ _ _ HT Hch' _ Hin) as (A & _).
          destruct (li_next _ _ _ _ _ _ HI y Enx) as (A' & _). lia. }
        exists m, e. split; auto. split; [rewrite E2; apply length_upd|].
        intros i. rewrite E3. unfold m0. rewrite nth_upd. unfold reparent.
        destruct (in_dec Nat.eq_dec i C') as [Hi|Hi], (in_dec Nat.eq_dec i (id :: C')) as [Hi'|Hi']; simpl in Hi';
        destruct (Nat.eqb_spec id i) as [Hx|Hx], (Nat.eqb_spec i id) as [Hy|Hy]; try tauto; try congruence;
          destruct (nth_error _ i); simpl; auto. }
    destruct HR as (m & e & ER & HLm & Hm).
    cbv zeta. cbn [t_nodes tree_upd set_t_nodes b_tree].
    replace (tree_len (tree_upd id (fun l => set_l_prev None (set_l_parent (Some n) l)) (b_tree b))) with n.
    2:{ unfold tree_len, tree_upd. simpl. rewrite length_upd. reflexivity. }
    fold m0. rewrite ER.
    unfold tree_push. rewrite (proj1 HF). cbn [storage_push option_map].
    eexists. eexists. eexists. split; [exact Hpar|]. split; [reflexivity|]. split; [reflexivity|].
    exists C, z. split; [exact Hch|]. split; [|split; [reflexivity|split; [reflexivity|split; [reflexivity|split]]]].
    + pose proof (close_table_spec (t_nodes (b_tree b)) m id C z (l_parent lid) (l_prev lid) d
        (match osp with Some sp => sp | None => Span (s_start (l_span lid)) e end)
        (fun l => let l := if opt_nat_eqb (l_first l) (Some id) then set_l_first (Some n) l else l in
                if opt_nat_eqb (l_last l) (Some id) then set_l_last (Some n) l else l)) as G.
      cbn [b_tree set_b_tree set_b_sibling].
      destruct (l_parent lid) as [par|] eqn:Epar, (l_prev lid) as [prev|] eqn:Eprev; cbn [opt_upd] in G;
        cbn [t_first tree_upd set_t_nodes];
        destruct (opt_nat_eqb (t_first (b_tree b)) (Some id)); cbn [t_nodes set_t_first set_t_nodes tree_upd];
        (apply G; [ intros p Hp; apply (li_parent _ _ _ _ _ _ HI p); congruence
                  | intros y Hy; destruct (li_prev _ _ _ _ _ _ HI y) as (A & _); [congruence|]; unfold n, tree_len in Hid; lia
                  | exact HLm | exact Hm | ]);
        intros l; destruct (opt_nat_eqb (l_first l) (Some id)) eqn:E1; cbn [l_last set_l_first];
          destruct (opt_nat_eqb (l_last l) (Some id)) eqn:E2; simpl; repeat split; auto.
    + cbn [b_tree set_b_tree set_b_sibling].
      destruct (l_parent lid) as [par|], (l_prev lid) as [prev|]; cbn [t_first tree_upd set_t_nodes];
        destruct (opt_nat_eqb (t_first (b_tree b)) (Some id)); simpl; intros x Hx; auto; injection Hx as <-; auto.
    + cbn [b_tree set_b_tree set_b_sibling].
      destruct (l_parent lid) as [par|], (l_prev lid) as [prev|]; cbn [t_first tree_upd set_t_nodes];
        destruct (opt_nat_eqb (t_first (b_tree b)) (Some id)); simpl; auto.
  - destruct (HC a c Ea) as [Hle _]. fold id in Hle.
    assert (id = n).
    { apply nth_error_None in Eid. change (n <= id) in Eid. change (id <= n) in Hle. lia. }
    destruct (insert_cases b d (match osp with Some sp => sp | None => span_point (b_cursor b) end) Hpl Hsl)
      as [E|(b' & E & HI)].
    { exfalso. unfold insert in E. fold n in E. rewrite En in E. destruct (tree_push _ _ _); discriminate. }
    rewrite E. fold n. rewrite H, Nat.eqb_refl. right; left. exists b'. split; auto.
Qed.

Lemma stack_head ns q stk p : stack_inv ns (q :: stk) -> In p (q :: stk) -> p <= q.
Proof. intros (_ & H & _) [<-|Hp]; [auto|]. apply H in Hp. lia. Qed.

Lemma wrapped_ok h b a c lid h' b' : ok h b -> nth_error h a = Some c -> c_parent c = b_parent b ->
  nth_error (t_nodes (b_tree b)) (c_node c) = Some lid ->
  wrapped h a b (c_node c) lid h' b' -> ok h' b'.
Proof.
  intros (lo & hi & cap & stk & HB & HC) Ea Hpar Eid (C & z & Hch & HCT & -> & Ep & Es & Ef & El).
  set (id := c_node c) in *. set (n := tree_len (b_tree b)) in *.
  pose proof (bi_table _ _ _ _ _ HB) as HT. pose proof (HT _ _ Eid) as HI.
  pose proof (bi_stack _ _ _ _ _ HB) as HS. pose proof (bi_parent _ _ _ _ _ HB) as HP.
  pose proof (chain_facts _ _ _ _ _ _ _ HT Hch) as HF0.
  assert (Hid : id < n) by (eapply nth_lt; eauto).
  destruct (HF0 z (chain_last _ _ _ _ Hch)) as (_ & Hzn & _ & _ & Hcz).
  assert (Hhz : (hi z < cap id)%Q).
  { destruct (nth_in _ z Hzn) as [lz Ez]. pose proof (li_hi _ _ _ _ _ _ (HT _ _ Ez)). lra. }
  destruct (HC a c Ea) as [_ Hcell]. fold id in Hcell. fold n in Hcell.
  assert (HPin : forall p, b_parent b = Some p -> In p stk).
  { intros p Hp. rewrite HP in Hp. destruct stk; simpl in *; [discriminate|]. injection Hp as <-. auto. }
  destruct (below (lo id) (l_parent lid) (l_prev lid) (b_parent b) lo hi lo) as (vlo & V0 & V1 & V2 & V3).
  { intros x Hx. apply (li_parent _ _ _ _ _ _ HI x Hx). }
  { intros x Hx. apply (li_prev _ _ _ _ _ _ HI x Hx). }
  { intros x Hx. destruct (Hcell x) as [_ G]; [congruence|]. apply G; auto. }
  set (vhi := ((hi z + cap id) * (1 # 2))%Q).
  assert (V4 : (hi z < vhi)%Q) by (unfold vhi; lra). assert (V5 : (vhi < cap id)%Q) by (unfold vhi; lra).
  clearbody vhi.
  pose proof (close_inv _ _ _ _ _ _ _ _ _ vlo vhi HCT HT Eid Hch V1 V2 V0 V4 V5) as HT'.
  destruct HCT as (HL & H1 & H2).
  assert (Hn' : tree_len (b_tree b') = S n) by exact HL.
  change (length (t_nodes (b_tree b))) with n in *.
  eexists. eexists. eexists. exists stk. split; [constructor; [exact HT'|..]|].
  - intros x Hx. rewrite Hn'. apply Ef in Hx. destruct Hx as [Hx| ->]; [|fold n; lia].
    apply (bi_first _ _ _ _ _ HB) in Hx. fold n in Hx. lia.
  - intros x Hx. rewrite Hn', El in *. apply (bi_last _ _ _ _ _ HB) in Hx. fold n in Hx. lia.
  - (* open nodes are left alone *)
    assert (HnC : forall x, In x stk -> ~ In x C).
    { intros x Hx Hc. apply HF0 in Hc. destruct stk as [|q stk]; [destruct Hx|].
      assert (x <= q) by (eapply stack_head; eauto). simpl in HP. destruct (Hcell q) as [A _]; [congruence|]. lia. }
    clear - HS H1 HnC HL Eid HI Hid. subst n. revert HS HnC. generalize dependent stk.
    induction stk as [|x s IH]; [simpl; auto|]. intros [[l [E [El' En]]] [Hd Hs]] HnC.
    simpl. split; [|split; auto].
    2:{ apply IH; auto. intros y Hy. apply HnC. simpl; auto. }
    assert (Hx : x < tree_len (b_tree b)) by (eapply nth_lt; eauto).
    destruct (nth_in (t_nodes (b_tree b')) x) as [l' E']; [unfold tree_len in *; lia|].
    destruct (H1 _ _ E' Hx) as (l0 & E0 & Gp & _ & Gn & _). exists l'. split; auto.
    assert (l0 = l) by congruence. subst l0. split.
    + rewrite Gp. destruct (in_dec Nat.eq_dec x C) as [Hc|Hc]; auto. exfalso. eapply HnC; eauto. simpl; auto.
    + destruct Gn as [[-> _]|[Gn _]]; auto. exfalso.
      destruct (li_prev _ _ _ _ _ _ HI x Gn) as (_ & _ & _ & l1 & El1 & Hn1). congruence.
  - congruence.
  - intros s Hs. rewrite Es in Hs. injection Hs as <-. split; [|split].
    + intros Hin. apply (stack_lt _ _ _ HS) in Hin. unfold n, tree_len in Hin. lia.
    + fold n. destruct (nth_in (t_nodes (b_tree b')) n) as [l' E']; [lia|]. exists l'. split; auto.
      apply (H2 _ E').
    + intros p Hp. rewrite Ep in Hp. destruct (Hcell p) as [A G]; [congruence|]. destruct (G Hid (HPin p Hp)) as [G1 G2].
      fold n. rewrite !fset_same, !(fset_lt _ _ _ p) by lia. split; [auto|lra].
  - rewrite Hn'. intros a' c' Ec'. rewrite nth_upd in Ec'. destruct (Nat.eqb_spec a a') as [<-|Hne].
    + rewrite Ea in Ec'. simpl in Ec'. injection Ec' as <-. split; cbn [c_node c_parent]; [fold n; lia|].
      intros p Hp. destruct (li_parent _ _ _ _ _ _ HI p Hp) as (A & B & D). fold n. fold n in A. split; [exact A|].
      intros _ Hin. rewrite !fset_same, !(fset_lt _ _ _ p) by auto. split; auto.
    + destruct (HC a' c' Ec') as [G1 G2]. fold n in G1, G2. split; [lia|].
      intros p Hp. destruct (G2 p Hp) as [G3 G4]. split; auto. intros _ Hin.
      rewrite !(fset_lt _ _ _ p) by lia. destruct (Nat.eq_dec (c_node c') n) as [->|Hcn].
      * rewrite !fset_same. destruct stk as [|q stk]; [destruct Hin|]. simpl in HP.
        destruct (stack_nested _ _ _ _ HT _ p q HS Hin) as [A B].
        destruct (Hcell q) as [_ G]; [congruence|]. destruct (G Hid) as [G5 G6]; [simpl; auto|].
        pose proof (V3 q HP). split; lra.
      * rewrite !fset_ne by auto. destruct (G4 ltac:(lia) Hin) as [G5 G6]. split; [auto|].
        destruct (in_dec Nat.eq_dec (c_node c') C) as [Hc|Hc]; auto.
        destruct (HF0 _ Hc) as (_ & _ & _ & _ & Hcc). lra.
Qed.

Lemma close_at_ok h b a c d osp : ok h b -> nth_error h a = Some c ->
  let '(h', b', r) := close_at_gen F a d osp h b in ok h' b' /\ fine r /\ length h' = length h.
Proof.
  intros H Ea. destruct (close_at_cases h b a c d osp H Ea) as [(e & -> & He)|[(b' & -> & HI)|(lid & h' & b' & Hp & Eid & -> & HW)]].
  - split; auto. split; auto. destruct He as [[-> _] | [-> _]]; exact I.
  - split; [|split; [exact I|auto]]. apply leaf_ok; auto.
  - split; [eapply wrapped_ok; eauto|]. split; [exact I|]. destruct HW as (C & z & _ & _ & -> & _). apply length_upd.
Qed.

(** ** Histories *)
Definition wok (w : world T) : Prop :=
  ok (w_heap w) (w_builder w) /\ forall a, In a (w_env w) -> a < length (w_heap w).

Definition fine_out (r : out) : Prop :=
  match r with RDiverge | RErr (MissingNode _) | RErr FlavorError => False | _ => True end.

Lemma fine_node r : fine r -> fine_out (out_node r).
Proof. destruct r as [|[]|]; simpl; auto. Qed.
Lemma fine_u r : fine_unit r -> fine_out (out_unit r).
Proof. destruct r as [|[]|]; simpl; auto. Qed.

Lemma step_ok w o : wok w -> wok (fst (step F w o)) /\ fine_out (snd (step F w o)).
Proof.
  intros [H He]. destruct w as [h b env]. simpl in H, He. destruct o; simpl.
  - change (open F d b) with (open_with F d (span_point (b_cursor b)) b).
    destruct (open_ok h b d (span_point (b_cursor b)) H) as [A B].
    destruct (open_with F d _ b) as [b' r]. split; [split; auto|apply fine_node; auto].
  - destruct (open_ok h b d sp H) as [A B]. destruct (open_with F d sp b) as [b' r].
    split; [split; auto|apply fine_node; auto].
  - destruct (close_ok h b H) as [A B]. destruct (close b) as [b' r]. split; [split; auto|apply fine_u; auto].
  - destruct (token_ok h b d len H) as [A B]. destruct (token F d len b) as [b' r]. split; [split; auto|apply fine_node; auto].
  - unfold token_empty. destruct (token_ok h b d len_EMPTY H) as [A B]. destruct (token F d len_EMPTY b) as [b' r]. split; [split; auto|apply fine_node; auto].
  - destruct (token_with_ok h b d sp H) as [A B]. destruct (token_with F d sp b) as [b' r]. split; [split; auto|apply fine_node; auto].
  - pose proof (checkpoint_ok h b H) as G. destruct (checkpoint F h b) as [[h' b'] r].
    destruct G as (A & B & D & E). destruct r as [a|e|].
    + split; [|exact I]. split; auto. simpl. intros a' Ha. apply in_app_or in Ha.
      destruct Ha as [Ha|[<-|[]]]; auto. apply He in Ha. lia.
    + split; [|destruct e; auto]. split; auto. simpl. intros a' Ha. apply He in Ha. lia.
    + destruct B.
  - destruct (nth_error env k) as [a|] eqn:Ek; [|split; [split; auto|exact I]].
    destruct (nth_in h a) as [c Ec]; [apply He; eapply nth_error_In; eauto|].
    unfold close_at. pose proof (close_at_ok h b a c d None H Ec) as G.
    destruct (close_at_gen F a d None h b) as [[h' b'] r]. destruct G as (A & B & D).
    split; [split; auto; simpl; intros a' Ha; rewrite D; auto|apply fine_node; auto].
  - destruct (nth_error env k) as [a|] eqn:Ek; [|split; [split; auto|exact I]].
    destruct (nth_in h a) as [c Ec]; [apply He; eapply nth_error_In; eauto|].
    unfold close_at_with. pose proof (close_at_ok h b a c d (Some sp) H Ec) as G.
    destruct (close_at_gen F a d (Some sp) h b) as [[h' b'] r]. destruct G as (A & B & D).
    split; [split; auto; simpl; intros a' Ha; rewrite D; auto|apply fine_node; auto].
  - split; [|exact I]. split; auto. simpl. eapply ok_ext; [exact H|..]; simpl; auto. apply same_ptrs_refl.
Qed.

Lemma wok_new : wok world_new.
Proof.
  split; [|intros a []]. exists (fun _ => 0%Q), (fun _ => 0%Q), (fun _ => 0%Q), []. split.
  - constructor; simpl; auto; try discriminate. intros i l E. destruct i; discriminate.
  - intros a c E. destruct a; discriminate.
Qed.

Lemma run_ok ops : forall w, wok w ->
  wok (fst (run F w ops)) /\ (forall r, In r (snd (run F w ops)) -> fine_out r).
Proof.
  induction ops as [|o ops IH]; simpl; intros w H; [split; auto; intros r []|].
  destruct (step_ok w o H) as [A B]. destruct (step F w o) as [w1 r1]. simpl in A, B.
  destruct (IH w1 A) as [D E]. destruct (run F w1 ops) as [w2 rs]. simpl in *. split; auto.
  intros r [<-|Hr]; auto.
Qed.
End AllHist.
