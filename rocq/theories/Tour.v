(** The walk of every tree from a builder, also with misused checkpoints. *)
From Coq Require Import Lia QArith Lqa Permutation.
From Verif Require Import Base Pointer Index Tree Builder Hist Node Iter Edit Spec SpecReads SpecShape SpecTour Rep Refine TreeRep Enum Walk AllHist StepFacts AllPlaced Modify PropsSafe
  AllReads Settle Shape.
Open Scope nat_scope.

(** ** Named parents are enclosing nodes *)
Inductive within {T} (par : nat -> option nat) : list nat -> list (rose T) -> Prop :=
| wi_nil A : within par A []
| wi_cons A i k d sp kids rest : (par i = None \/ exists q, par i = Some q /\ In q A) ->
    within par (i :: A) kids -> within par A rest -> within par A (Nd i k d sp kids :: rest).

Section Table.
Context {T : Type}.
Variable ns : list (links T).
Variables lo hi cap : nat -> Q.
Hypothesis HT : table_inv ns lo hi cap.
Hypothesis HF1 : forall i l y, nth_error ns i = Some l -> l_first l = Some y -> exists ly, nth_error ns y = Some ly /\ l_parent ly = Some i.
Definition par (i : nat) : option nat := match nth_error ns i with Some l => l_parent l | None => None end.

Lemma look_node i d sp f nx : look ns i = Some (d, sp, f, nx) -> exists l, nth_error ns i = Some l /\ l_data l = d /\ l_span l = sp /\ l_first l = f /\ l_next l = nx.
Proof. unfold look. destruct (nth_error ns i) as [l|]; [|discriminate]. simpl. intros E. injection E as <- <- <- <-. eauto 8. Qed.

Lemma sees_range o l : sees (look ns) o l -> forall i, o = Some i -> forall q, In q (ids l) -> (lo i <= lo q)%Q /\ (hi q < cap i)%Q.
Proof.
  induction 1 as [|i d sp f nx k kids rest E H1 IH1 H2 IH2]; intros j Hj q Hq; [discriminate|]. injection Hj as <-.
  destruct (look_node _ _ _ _ _ E) as (l & El & _ & _ & Ef & En). pose proof (HT _ _ El) as HI.
  pose proof (li_lo _ _ _ _ _ _ HI). pose proof (li_hi _ _ _ _ _ _ HI).
  rewrite ids_cons in Hq. simpl in Hq. rewrite in_app_iff in Hq. destruct Hq as [<-|[Hq|Hq]].
  - lra.
  - destruct f as [y|]; [|apply (sees_nil _ _ _) in H1; destruct H1 as [H1 _]; rewrite H1 in Hq by auto; destruct Hq].
    destruct (IH1 y eq_refl q Hq) as [A B]. destruct (li_first _ _ _ _ _ _ HI y Ef) as (_ & C).
    destruct (HF1 _ _ _ El Ef) as (ly & Ey & Py). destruct (li_parent _ _ _ _ _ _ (HT _ _ Ey) i Py) as (_ & _ & D). lra.
  - destruct nx as [y|]; [|apply (sees_nil _ _ _) in H2; destruct H2 as [H2 _]; rewrite H2 in Hq by auto; destruct Hq].
    destruct (IH2 y eq_refl q Hq) as [A B]. destruct (li_next _ _ _ _ _ _ HI y En) as (_ & C & D & _). lra.
Qed.

Lemma sees_within o l : sees (look ns) o l -> forall A,
  (forall i, o = Some i -> forall q, q < length ns -> In q (ids l) \/ In q A \/ (hi q < lo i)%Q \/ (cap i <= lo q)%Q) -> within par A l.
Proof.
  induction 1 as [|i d sp f nx k kids rest E H1 IH1 H2 IH2]; intros A HA; [constructor|].
  assert (Hs : sees (look ns) (Some i) (Nd i k d sp kids :: rest)) by (econstructor; eauto).
  specialize (HA i eq_refl). pose proof (sees_range _ _ Hs i eq_refl) as R.
  destruct (look_node _ _ _ _ _ E) as (l & El & _ & _ & Ef & En). pose proof (HT _ _ El) as HI.
  pose proof (li_lo _ _ _ _ _ _ HI) as Lo. pose proof (li_hi _ _ _ _ _ _ HI) as Hi.
  rewrite ids_cons in HA, R.
  constructor.
  - unfold par. rewrite El. destruct (l_parent l) as [q|] eqn:Eq; auto. right. exists q. split; auto.
    destruct (li_parent _ _ _ _ _ _ HI q Eq) as (Hq & B & C). destruct (HA q Hq) as [D|[D|[D|D]]]; auto; exfalso; [apply R in D; lra|lra|lra].
  - apply IH1. intros y Ey q Hq. rewrite Ey in Ef. destruct (li_first _ _ _ _ _ _ HI y Ef) as (_ & C).
    destruct (HF1 _ _ _ El Ef) as (ly & Ey' & Py). destruct (li_parent _ _ _ _ _ _ (HT _ _ Ey') i Py) as (_ & _ & D).
    destruct (HA q Hq) as [B|[B|[B|B]]]; [|simpl; auto|right; right; left; lra|right; right; right; lra].
    simpl in B. rewrite in_app_iff in B. destruct B as [<-|[B|B]]; [simpl; auto|auto|].
    right; right; right. destruct nx as [z|]; [|apply (sees_nil _ _ _) in H2; destruct H2 as [H2 _]; rewrite H2 in B by auto; destruct B].
    destruct (sees_range _ _ H2 z eq_refl q B) as [G _]. destruct (li_next _ _ _ _ _ _ HI z En) as (_ & G' & _). lra.
  - apply IH2. intros y Ey q Hq. rewrite Ey in En. destruct (li_next _ _ _ _ _ _ HI y En) as (_ & C & D & _).
    destruct (HA q Hq) as [B|[B|[B|B]]]; [|auto|right; right; left; lra|right; right; right; lra].
    simpl in B. rewrite in_app_iff in B. destruct B as [<-|[B|B]]; [right; right; left; lra| |auto].
    right; right; left. destruct f as [z|]; [|apply (sees_nil _ _ _) in H1; destruct H1 as [H1 _]; rewrite H1 in B by auto; destruct B].
    destruct (sees_range _ _ H1 z eq_refl q B) as [_ G]. destruct (HF1 _ _ _ El Ef) as (ly & Ey' & Py).
    destruct (li_parent _ _ _ _ _ _ (HT _ _ Ey') i Py) as (_ & _ & G'). lra.
Qed.
End Table.

(** ** The tour of a tree *)
Section Run.
Context {T : Type}.
Variable F : flavor.
Variable ns : list (links T).
Notation par := (par ns).
Implicit Types (x : rose T) (l : list (rose T)).

Lemma tour_from_eq p (e : event) d x : tour_from p e d x = match r_kids x with
  | [] => ([(d, e, x)], (Some (r_id x), d))
  | _ => let '(tr, (at_, d')) := tour_row p Down (d + 1)%Z (r_kids x) in
    if opt_nat_eqb at_ (Some (r_id x)) then ((d, e, x) :: tr ++ [(d', Up, x)], (at_, d')) else ((d, e, x) :: tr, (at_, d'))
  end.
Proof. destruct x; auto. Qed.
Lemma tour_row_cons p e d x l : tour_row (T := T) p e d (x :: l) =
    let '(tr, (at_, d')) := tour_from p e d x in
    if opt_nat_eqb at_ (Some (r_id x)) then
      match l with
      | [] => (tr, (p (r_id x), d' - 1)%Z)
      | _ => let '(tr', r) := tour_row p Next d' l in (tr ++ tr', r)
      end
    else (tr, (at_, d')).
Proof. destruct l; auto. Qed.

Definition arrived (o : option nat) (d : Z) : walk_it := WalkIt (option_map (fun p => (p, Up)) o) d.

Lemma step_up i lk d : nth_error ns i = Some lk -> (- isize_max F - 1 <= d - 1)%Z ->
  walk_events_next F ns (WalkIt (Some (i, Up)) d) = (after (l_parent lk) (l_next lk) d, Some (Up, (i, lk))).
Proof.
  intros E Hb. unfold walk_events_next. cbn [wk_node]. rewrite E. unfold walk_step. cbn [wk_depth]. unfold after, isize_dec.
  destruct (l_next lk); auto. destruct (Z.leb_spec (- isize_max F - 1) (d - 1)); [|lia]. destruct (l_parent lk); auto.
Qed.
Lemma step_down i lk e d : e <> Up -> nth_error ns i = Some lk -> (- isize_max F - 1 <= d - 1)%Z -> (d + 1 <= isize_max F)%Z ->
  walk_events_next F ns (WalkIt (Some (i, e)) d) =
    (match l_first lk with Some f => WalkIt (Some (f, Down)) (d + 1) | None => after (l_parent lk) (l_next lk) d end, Some (e, (i, lk))).
Proof.
  intros He E Hb Hb2. unfold walk_events_next. cbn [wk_node]. rewrite E. unfold walk_step. cbn [wk_depth]. unfold after, isize_dec, isize_inc.
  destruct (Z.leb_spec (- isize_max F - 1) (d - 1)); [|lia]. destruct (Z.leb_spec (d + 1) (isize_max F)); [|lia].
  destruct e; [| |congruence]; destruct (l_first lk); auto; destruct (l_next lk); auto; destruct (l_parent lk); auto.
Qed.

Lemma sees_shows i d sp f nx k kids : look ns i = Some (d, sp, f, nx) -> sees (look ns) f kids -> exists lk, nth_error ns i = Some lk /\ l_first lk = f /\ l_next lk = nx /\
  shows ns (i, lk) (Nd i k d sp kids).
Proof.
  intros E H. destruct (look_node ns _ _ _ _ _ E) as (lk & El & <- & <- & <- & <-). exists lk. split; auto. split; auto. split; auto.
  unfold shows. simpl. unfold node_at. rewrite El. split; auto. unfold view, rview. simpl. unfold node_value, node_span, has_children. simpl.
  unfold has_kids. simpl. f_equal. inversion H; subst; auto.
Qed.


(** What the walk does, from the first of a row on. *)
Lemma wrun_row o l : sees (look ns) o l -> forall i e d, o = Some i -> e <> Up -> (- isize_max F - 1 <= d - 1)%Z -> (d + Z.of_nat (size_l l) <= isize_max F)%Z ->
  let '(tr, (at_, d')) := tour_row par e d l in
  wrun F ns (WalkIt (Some (i, e)) d) tr (arrived at_ d') /\ (d - 1 <= d' < d + Z.of_nat (size_l l))%Z.
Proof.
  induction 1 as [|i d0 sp f nx k kids rest E H1 IH1 H2 IH2]; intros j e d Hj He Hd Hb; [discriminate|]. injection Hj as <-.
  destruct (sees_shows _ _ _ _ _ k _ E H1) as (lk & El & Ef & En & Hsh).
  rewrite tour_row_cons, tour_from_eq. cbn [r_kids r_id]. rewrite size_l_cons, size_eq in *. cbn [r_kids] in *.
  (* once the subtree of this node is finished *)
  assert (L : forall w tr d', wrun F ns w tr (after (l_parent lk) (l_next lk) d') -> (d <= d' <= d + Z.of_nat (size_l kids))%Z ->
    let '(tr', (at_, d'')) := match rest with
      | [] => (tr, (par i, d' - 1)%Z)
      | _ => let '(tr', r) := tour_row par Next d' rest in (tr ++ tr', r)
      end in wrun F ns w tr' (arrived at_ d'') /\ (d - 1 <= d'' < d + Z.of_nat (S (size_l kids) + size_l rest))%Z).
  { intros w tr d' Hw Hd'. destruct rest as [|y rest'].
    - assert (nx = None) by (inversion H2; auto). rewrite En, H in Hw. unfold par. rewrite El. split; [exact Hw|]. unfold size_l in *. simpl in *. lia.
    - assert (exists z, nx = Some z) as (z & Hz) by (inversion H2; eauto). specialize (IH2 z Next d' Hz ltac:(discriminate) ltac:(lia) ltac:(lia)).
      destruct (tour_row par Next d' (y :: rest')) as [tr' [at_ d'']]. destruct IH2 as [A B]. rewrite En, Hz in Hw. split; [eapply wrun_app; eauto|lia]. }
  destruct kids as [|c kids'].
  - rewrite opt_eqb_refl. assert (f = None) by (inversion H1; auto). apply L; [|unfold size_l; simpl; lia].
    change d with (wk_depth (WalkIt (Some (i, e)) d)) at 2. econstructor; [rewrite (step_down _ _ _ _ He El), Ef, H; [reflexivity|lia|lia]|exact Hsh|constructor].
  - assert (exists y, f = Some y) as (y & Hy) by (inversion H1; eauto). specialize (IH1 y Down (d + 1)%Z Hy ltac:(discriminate) ltac:(lia) ltac:(lia)).
    destruct (tour_row par Down (d + 1) (c :: kids')) as [tr [at_ d']]. destruct IH1 as [A B].
    assert (W : wrun F ns (WalkIt (Some (i, e)) d) ((d, e, Nd i k d0 sp (c :: kids')) :: tr) (arrived at_ d')).
    { change d with (wk_depth (WalkIt (Some (i, e)) d)) at 2. econstructor; [rewrite (step_down _ _ _ _ He El), Ef, Hy; [reflexivity|lia|lia]|exact Hsh|exact A]. }
    destruct (opt_nat_eqb at_ (Some i)) eqn:Eat.
    + apply opt_eqb in Eat. subst at_. rewrite opt_eqb_refl. apply L; [|lia]. rewrite app_comm_cons. eapply wrun_app; [exact W|].
      change d' with (wk_depth (arrived (Some i) d')) at 2. econstructor; [unfold arrived; simpl; rewrite (step_up _ _ _ El); [reflexivity|lia]|exact Hsh|constructor].
    + rewrite Eat. split; [exact W|lia].
Qed.

(** ... and where it ends. *)
Lemma tour_ends A l : within (T := T) par A l -> forall e d, let '(_, (at_, _)) := tour_row par e d l in at_ = None \/ exists q, at_ = Some q /\ In q A.
Proof.
  induction 1 as [A|A i k d0 sp kids rest Hp H1 IH1 H2 IH2]; intros e d; [simpl; auto|].
  rewrite tour_row_cons, tour_from_eq. cbn [r_kids r_id]. destruct kids as [|c kids'].
  - rewrite opt_eqb_refl. destruct rest as [|y rest']; [exact Hp|]. specialize (IH2 Next d). destruct (tour_row par Next d (y :: rest')) as [tr' [at_ d']]. exact IH2.
  - specialize (IH1 Down (d + 1)%Z). destruct (tour_row par Down (d + 1) (c :: kids')) as [tr [at_ d']]. destruct (opt_nat_eqb at_ (Some i)) eqn:Eat.
    + rewrite Eat. destruct rest as [|y rest']; [exact Hp|]. specialize (IH2 Next d'). destruct (tour_row par Next d' (y :: rest')) as [tr' [at2 d'']]. exact IH2.
    + rewrite Eat. destruct IH1 as [IH1|(q & -> & [<-|Hq])]; eauto. rewrite opt_eqb_refl in Eat. discriminate.
Qed.

(** ... and in what order. *)
Lemma subsequence_app {A} (a b a' b' : list A) : subsequence a b -> subsequence a' b' -> subsequence (a ++ a') (b ++ b').
Proof. induction 1; simpl; auto; constructor; auto. Qed.
Lemma subsequence_none {A} (b : list A) : subsequence [] b.
Proof. induction b; constructor; auto. Qed.
Lemma downs_app (a b : visits (T := T)) : map snd (filter downwards (a ++ b)) = map snd (filter downwards a) ++ map snd (filter downwards b).
Proof. rewrite filter_app, map_app. auto. Qed.
Lemma tour_order p l : forall e d, e <> Up -> subsequence (map snd (filter downwards (fst (tour_row p e d l)))) (preorder_list l).
Proof.
  assert (G : forall n l, size_l l <= n -> forall e d, e <> Up -> subsequence (map snd (filter downwards (fst (tour_row p e d l)))) (preorder_list l)).
  2:{ eapply G; eauto. }
  clear l. induction n as [|n IH]; intros [|x l] Hn e d He; try (constructor; fail); rewrite size_l_cons, size_eq in Hn; [lia|].
  assert (K : forall e d, e <> Up -> subsequence (map snd (filter downwards (fst (tour_row p e d (r_kids x))))) (preorder_list (r_kids x))) by (intros; apply IH; auto; lia).
  assert (R : forall d, subsequence (map snd (filter downwards (fst (tour_row p Next d l)))) (preorder_list l)) by (intros; apply IH; [lia|discriminate]).
  rewrite tour_row_cons, tour_from_eq. assert (Ex : preorder_list (x :: l) = x :: preorder_list (r_kids x) ++ preorder_list l) by (destruct x; auto). rewrite Ex. clear Ex.
  assert (De : downwards (d, e, x) = true) by (destruct e; auto; congruence).
  destruct (r_kids x) as [|c kids] eqn:Ek.
  - rewrite opt_eqb_refl. destruct l as [|y l].
    + simpl. rewrite De. simpl. constructor. constructor.
    + specialize (R d). destruct (tour_row p Next d (y :: l)) as [tr r]. simpl in R |- *. rewrite De. simpl. constructor. exact R.
  - specialize (K Down (d + 1)%Z ltac:(discriminate)). destruct (tour_row p Down (d + 1) (c :: kids)) as [tr [at_ d']]. simpl in K.
    destruct (opt_nat_eqb at_ (Some (r_id x))) eqn:Eat; rewrite Eat.
    + assert (K' : subsequence (map snd (filter downwards ((d, e, x) :: tr ++ [(d', Up, x)]))) (x :: preorder_list (c :: kids))).
      { simpl. rewrite De, filter_app. simpl. rewrite app_nil_r. constructor. exact K. }
      destruct l as [|y l].
      * simpl fst. change (preorder_list []) with (@nil (rose T)). rewrite app_nil_r. exact K'.
      * specialize (R d'). destruct (tour_row p Next d' (y :: l)) as [tr' r]. cbn [fst] in R |- *. rewrite downs_app. apply (subsequence_app _ (x :: preorder_list (c :: kids)) _ (preorder_list (y :: l))); auto.
    + simpl fst. simpl. rewrite De. simpl. constructor. rewrite <- (app_nil_r (map _ _)). apply (subsequence_app _ (preorder_list (c :: kids)) [] (preorder_list l)); auto. apply subsequence_none.
Qed.

(** A tour in which every node names the parent it is read under visits everything. *)
Definition proper (p : nat -> option nat) (up : option nat) l : Prop := forall x, In x l -> p (r_id x) = up.
Inductive all_proper (p : nat -> option nat) : option nat -> list (rose T) -> Prop :=
| ap_nil up : all_proper p up []
| ap_cons up i k d sp kids rest : p i = up -> all_proper p (Some i) kids -> all_proper p up rest -> all_proper p up (Nd i k d sp kids :: rest).
Lemma tour_proper p up l : all_proper p up l -> forall e d, e <> Up -> l <> [] ->
  tour_row p e d l = (match l with [] => [] | x :: r => trace d e x ++ trace_list d r end, (up, d - 1)%Z).
Proof.
  induction 1 as [up|up i k d0 sp kids rest Hp H1 IH1 H2 IH2]; intros e d He Hne; [congruence|].
  rewrite tour_row_cons, tour_from_eq. rewrite trace_eq. cbn [r_kids r_id].
  assert (G : match rest with [] => ([], (p i, d - 1)%Z) | _ => tour_row p Next d rest end = (trace_list d rest, (up, d - 1)%Z)).
  { destruct rest as [|y r]; [rewrite Hp; auto|]. rewrite IH2; try discriminate. auto. }
  destruct kids as [|c kids'].
  - rewrite opt_eqb_refl. destruct rest as [|y r]; [rewrite Hp; auto|]. rewrite G. auto.
  - rewrite IH1; try discriminate. rewrite opt_eqb_refl. replace (d + 1 - 1)%Z with d by lia. rewrite opt_eqb_refl. cbn [trace_kids].
    destruct rest as [|y r]; [rewrite Hp; unfold trace_list at 2; simpl; rewrite app_nil_r; auto|]. rewrite G. auto.
Qed.
End Run.

(** ** For every history *)
Lemma history_sees T F (ops : list (op T)) l : vec_flavor F -> let t := tree_so_far F ops in
  reads t (tree_first t) l -> sees (look (t_nodes t)) (t_first t) l.
Proof.
  intros HF t Hl. destruct (run_placed F HF ops) as [[(lo & hi & cap & stk & HB & _) _] HP].
  pose proof (bi_table _ _ _ _ _ HB) as HT. change (b_tree (w_builder (run_world F ops))) with t in HT.
  assert (SE : forall o m, reads t (node_opt (t_nodes t) o) m -> (o = None \/ exists i l, o = Some i /\ nth_error (t_nodes t) i = Some l) -> sees (look (t_nodes t)) o m).
  { intros o m H. remember (node_opt (t_nodes t) o) as no eqn:En. revert o En.
    assert (R : forall i li y, nth_error (t_nodes t) i = Some li -> (l_first li = Some y \/ l_next li = Some y) -> exists ly, nth_error (t_nodes t) y = Some ly).
    { intros i li y E [H'|H'].
      - destruct (li_first _ _ _ _ _ _ (HT _ _ E) y H') as (A & _). apply nth_in; auto.
      - destruct (li_next _ _ _ _ _ _ (HT _ _ E) y H') as (_ & _ & _ & ly & A & _). eauto. }
    induction H as [|n0 k kids rest H0 H1 IH1 H2 IH2]; intros o En Ho.
    - destruct Ho as [->|(i & li & -> & Ei)]; [constructor|]. simpl in En. unfold node_at in En. rewrite Ei in En. discriminate.
    - destruct Ho as [->|(i & li & -> & Ei)]; [discriminate|]. simpl in En. unfold node_at in En. rewrite Ei in En. injection En as ->. simpl.
      eapply se_node; [unfold look; rewrite Ei; reflexivity| |].
      + apply IH1; auto. destruct (l_first li) as [y|] eqn:Ey; auto. right. destruct (R _ _ y Ei (or_introl Ey)). eauto.
      + apply IH2; auto. destruct (l_next li) as [y|] eqn:Ey; auto. right. destruct (R _ _ y Ei (or_intror Ey)). eauto. }
  apply SE; auto. destruct (t_first t) as [i|] eqn:Ei; auto. right. assert (Hi : i < tree_len t) by (apply (bi_first _ _ _ _ _ HB); auto).
  destruct (nth_in _ _ Hi) as [li E]. eauto.
Qed.

Lemma history_within T F (ops : list (op T)) l : vec_flavor F -> let t := tree_so_far F ops in
  reads t (tree_first t) l -> within (par (t_nodes t)) [] l.
Proof.
  intros HF t Hl. pose proof (history_sees T F ops l HF Hl) as Hs. pose proof (run_placed F HF ops) as Hw.
  destruct (placed_reads _ _ Hw) as (_ & _ & Hp). specialize (Hp l Hl).
  destruct Hw as [[(lo & hi & cap & stk & HB & _) _] HP]. pose proof (bi_table _ _ _ _ _ HB) as HT.
  eapply (sees_within (t_nodes t) lo hi cap HT); [|exact Hs|].
  - intros i li y E Ef. assert (G : level_first t (Some i) = Some y) by (unfold level_first; rewrite E; auto).
    destruct (pl_first _ HP (Some i) y G) as (ly & Ey & _ & Py). eauto.
  - intros i _ q Hq. left. apply (Permutation_in q (Permutation_sym Hp)). apply in_seq. split; [lia|exact Hq].
Qed.
