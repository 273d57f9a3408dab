(** Every history of calls does what [SpecShape] says. *)
From Coq Require Import Lia QArith Lqa Permutation.
From Verif Require Import Base Pointer Index Tree Builder Hist Node Iter Edit Spec SpecReads SpecShape Rep Refine TreeRep AllHist StepFacts AllPlaced Modify PropsSafe AllReads Settle.
Open Scope nat_scope.

(** ** Reading a table of links *)
Definition facts (T : Type) : Type := (T * span * option nat * option nat)%type.
Inductive sees {T} (g : nat -> option (facts T)) : option nat -> list (rose T) -> Prop :=
| se_end : sees g None []
| se_node i d sp f nx k kids rest : g i = Some (d, sp, f, nx) -> sees g f kids -> sees g nx rest ->
    sees g (Some i) (Nd i k d sp kids :: rest).
Definition look {T} (ns : list (links T)) (i : nat) : option (facts T) :=
  option_map (fun l => (l_data l, l_span l, l_first l, l_next l)) (nth_error ns i).

Lemma sees_reads T (t : tree T) o l : sees (look (t_nodes t)) o l -> reads t (node_opt (t_nodes t) o) l.
Proof.
  induction 1 as [|i d sp f nx k kids rest E H1 IH1 H2 IH2]; [constructor|].
  unfold look in E. destruct (nth_error (t_nodes t) i) as [x|] eqn:Ex; [|discriminate]. simpl in E. injection E as <- <- <- <-.
  simpl. unfold node_at. rewrite Ex. apply (rd_node t (i, x) k kids rest); auto.
  unfold has_children. simpl. inversion H1; auto.
Qed.

Notation ids l := (map r_id (preorder_list l)).
Lemma ids_cons T i k d sp kids (rest : list (rose T)) : ids (Nd i k d sp kids :: rest) = i :: ids kids ++ ids rest.
Proof. unfold preorder_list. cbn [flat_map preorder]. rewrite <- app_comm_cons. cbn [map r_id]. rewrite map_app. auto. Qed.

Section Pure.
Context {T : Type}.
Implicit Types (g : nat -> option (facts T)) (l : list (rose T)).

Lemma sees_ext g g' o l : sees g o l -> (forall i, In i (ids l) -> g' i = g i) -> sees g' o l.
Proof.
  induction 1 as [|i d sp f nx k kids rest E H1 IH1 H2 IH2]; intros H; [constructor|]. rewrite ids_cons in H.
  econstructor; [rewrite H by (simpl; auto); eauto| |].
  - apply IH1. intros j Hj. apply H. simpl. rewrite in_app_iff. auto.
  - apply IH2. intros j Hj. apply H. simpl. rewrite in_app_iff. auto.
Qed.
Lemma sees_known g o l : sees g o l -> forall i, In i (ids l) -> g i <> None.
Proof.
  induction 1 as [|i d sp f nx k kids rest E H1 IH1 H2 IH2]; intros j Hj; [destruct Hj|]. rewrite ids_cons in Hj. simpl in Hj.
  rewrite in_app_iff in Hj. destruct Hj as [<-|[Hj|Hj]]; auto. congruence.
Qed.
Lemma sees_nil g o l : sees g o l -> (o = None <-> l = []).
Proof. intros H; inversion H; subst; split; auto; discriminate. Qed.

Lemma sees_after g g' s n d0 sp0 d1 sp1 f1 k0 :
  g s = Some (d1, sp1, f1, None) -> g' s = Some (d1, sp1, f1, Some n) -> g' n = Some (d0, sp0, None, None) ->
  (forall i, i <> s -> g i <> None -> g' i = g i) ->
  forall o l, sees g o l -> sees g' o (flat_map (after_in s (Nd n k0 d0 sp0 [])) l).
Proof.
  intros Es Es' En Hg o l H. induction H as [|i d sp f nx k kids rest E H1 IH1 H2 IH2]; [constructor|].
  cbn [flat_map after_in app]. destruct (Nat.eqb_spec i s) as [->|Hne].
  - rewrite Es in E. injection E as <- <- <- <-. inversion H2; subst. cbn [flat_map app].
    econstructor; [exact Es'|exact IH1|]. econstructor; [exact En|constructor|constructor].
  - econstructor; [rewrite Hg by (auto; congruence); exact E|exact IH1|exact IH2].
Qed.

Lemma sees_into g g' p n d0 sp0 d1 sp1 x1 k0 :
  g p = Some (d1, sp1, None, x1) -> g' p = Some (d1, sp1, Some n, x1) -> g' n = Some (d0, sp0, None, None) ->
  (forall i, i <> p -> g i <> None -> g' i = g i) ->
  forall o l, sees g o l -> sees g' o (map (into p (Nd n k0 d0 sp0 [])) l).
Proof.
  intros Es Es' En Hg o l H. induction H as [|i d sp f nx k kids rest E H1 IH1 H2 IH2]; [constructor|].
  cbn [map into]. destruct (Nat.eqb_spec i p) as [->|Hne].
  - rewrite Es in E. injection E as <- <- <- <-. inversion H1; subst. cbn [map app].
    econstructor; [exact Es'| |exact IH2]. econstructor; [exact En|constructor|constructor].
  - rewrite app_nil_r. econstructor; [rewrite Hg by (auto; congruence); exact E|exact IH1|exact IH2].
Qed.

Lemma sees_respan g g' p fs :
  (forall i d sp f nx, g i = Some (d, sp, f, nx) -> g' i = Some (d, if Nat.eqb i p then fs sp else sp, f, nx)) ->
  forall o l, sees g o l -> sees g' o (map (respan p fs) l).
Proof.
  intros Hg o l H. induction H as [|i d sp f nx k kids rest E H1 IH1 H2 IH2]; [constructor|]. cbn [map respan].
  econstructor; [apply Hg; exact E|exact IH1|exact IH2].
Qed.

Definition redirect (id n : nat) (o : option nat) : option nat := if opt_nat_eqb o (Some id) then Some n else o.
Lemma redirect_same id n o : o <> Some id -> redirect id n o = o.
Proof. intros H. unfold redirect. destruct (opt_nat_eqb o (Some id)) eqn:E; auto. apply opt_eqb in E. congruence. Qed.
Lemma redirect_id id n : redirect id n (Some id) = Some n.
Proof. unfold redirect. rewrite opt_eqb_refl. auto. Qed.

Lemma sees_head g i l : sees g (Some i) l -> In i (ids l).
Proof. intros H; inversion H; subst. rewrite ids_cons. simpl. auto. Qed.

Lemma sees_same g g' id n :
  (forall i d sp f nx, g i = Some (d, sp, f, nx) -> g' i = Some (d, sp, redirect id n f, redirect id n nx)) ->
  forall o l, sees g o l -> ~ In id (ids l) -> sees g' o l.
Proof.
  intros Hg o l H. induction H as [|i d sp f nx k kids rest E H1 IH1 H2 IH2]; intros Hn; [constructor|]. rewrite ids_cons in Hn. simpl in Hn. rewrite in_app_iff in Hn.
  econstructor; [rewrite (Hg _ _ _ _ _ E); rewrite !redirect_same; [reflexivity|..]|apply IH1; tauto|apply IH2; tauto].
  - intros ->. apply sees_head in H2. tauto.
  - intros ->. apply sees_head in H1. tauto.
Qed.

Lemma sees_wrap g g' id n dn spn (w : rose T -> list (rose T) -> rose T) :
  (forall i d sp f nx, g i = Some (d, sp, f, nx) -> g' i = Some (d, sp, redirect id n f, redirect id n nx)) ->
  g' n = Some (dn, spn, Some id, None) ->
  (forall x r, sees g (Some id) (x :: r) -> exists k, w x r = Nd n k dn spn (x :: r)) ->
  forall o l, sees g o l -> NoDup (ids l) -> sees g' (redirect id n o) (wrap_from id w l).
Proof.
  intros Hg Hn Hw o l H. unfold wrap_from. induction H as [|i d sp f nx k kids rest E H1 IH1 H2 IH2]; intros Hd; [constructor|].
  rewrite ids_cons in Hd. inversion Hd as [|? ? Hni Hd']; subst. rewrite in_app_iff in Hni.
  apply NoDup_app_iff in Hd' as (D1 & D2 & _).
  cbn [wrap_with r_id]. destruct (Nat.eqb_spec i id) as [->|Hne].
  - rewrite redirect_id. destruct (Hw (Nd id k d sp kids) rest) as (kw & ->); [econstructor; eauto|].
    econstructor; [exact Hn| |constructor]. econstructor; [rewrite (Hg _ _ _ _ _ E); rewrite !redirect_same; [reflexivity|..]| |].
    + intros ->. apply sees_head in H2. tauto.
    + intros ->. apply sees_head in H1. tauto.
    + eapply sees_same; eauto.
    + eapply sees_same; eauto.
  - rewrite redirect_same by congruence. cbn [wrap_in]. econstructor; [apply (Hg _ _ _ _ _ E)|auto|auto].
Qed.

(** [run_at] *)
Lemma from_spec id l : match from id l with Some (x, r) => exists s, l = s ++ x :: r /\ r_id x = id | None => ~ In id (map r_id l) end.
Proof.
  induction l as [|y l IH]; simpl; [tauto|]. destruct (Nat.eqb_spec (r_id y) id) as [<-|H]; [exists []; auto|].
  destruct (from id l) as [[x r]|]; [destruct IH as (s & -> & E); exists (y :: s); auto|tauto].
Qed.
Lemma sees_tail g : forall s o x r, sees g o (s ++ x :: r) -> sees g (Some (r_id x)) (x :: r).
Proof.
  induction s as [|y s IH]; intros o x r H; simpl in H.
  - inversion H; subst. exact H.
  - inversion H; subst. eapply IH; eauto.
Qed.
Lemma sees_kids g o l : sees g o l -> forall x, In x (preorder_list l) -> exists o', sees g o' (r_kids x).
Proof.
  induction 1 as [|i d sp f nx k kids rest E H1 IH1 H2 IH2]; intros x Hx; [destruct Hx|].
  apply in_pre_cons in Hx as [->|[Hx|Hx]]; eauto.
Qed.
Lemma sees_siblings g o l : sees g o l -> forall p s, In (p, s) (sibling_lists l) -> exists o', sees g o' s.
Proof.
  intros H p s [E|Hs]; [injection E as <- <-; eauto|]. apply in_map_iff in Hs as (x & E & Hx). injection E as <- <-. eapply sees_kids; eauto.
Qed.
Lemma first_some_spec {A B} (f : A -> option B) v : match first_some f v with Some b => exists a, In a v /\ f a = Some b | None => forall a, In a v -> f a = None end.
Proof.
  induction v as [|a v IH]; simpl; [tauto|]. destruct (f a) as [b|] eqn:E; [eauto|]. destruct (first_some f v); [destruct IH as (a' & ? & ?); eauto|].
  intros a' [<-|H]; auto.
Qed.
Lemma run_at_spec g o l id : sees g o l ->
  match run_at id l with Some (x, r) => r_id x = id /\ sees g (Some id) (x :: r) /\ In id (ids l) | None => ~ In id (ids l) end.
Proof.
  intros H. unfold run_at. pose proof (first_some_spec (fun ps => from id (snd ps)) (sibling_lists l)) as G.
  destruct (first_some _ (sibling_lists l)) as [[x r]|].
  - destruct G as ((p & s) & Hs & E). simpl in E. pose proof (from_spec id s) as F. rewrite E in F. destruct F as (s1 & -> & Ex).
    split; auto. destruct (sees_siblings _ _ _ H _ _ Hs) as (o' & Ho). apply sees_tail in Ho. rewrite Ex in Ho. split; auto.
    rewrite <- Ex. apply in_map. eapply sibling_list_in; [exact Hs|]. apply in_or_app. right. left. auto.
  - intros Hi. apply in_map_iff in Hi as (x & Ex & Hx). apply in_sibling_lists in Hx as (p & s1 & s2 & Hs).
    specialize (G _ Hs). simpl in G. pose proof (from_spec id (s1 ++ x :: s2)) as F. rewrite G in F. apply F. rewrite <- Ex. apply in_map. apply in_or_app. right. left. auto.
Qed.
End Pure.

(** ** What the calls do to the table *)
Section Sim.
Context {T : Type}.
Variable F : flavor.
Hypothesis HF : vec_flavor F.
Implicit Types (b : builder T) (s : shape T) (w : world T).

Lemma look_some (ns : list (links T)) i : look ns i <> None <-> i < length ns.
Proof. unfold look. rewrite <- nth_error_Some. destruct (nth_error ns i); simpl; split; intros H; try discriminate; exfalso; apply H; auto. Qed.

Lemma insert_look b d sp b' id : (forall p, b_parent b = Some p -> p < tree_len (b_tree b)) ->
  (forall q, b_sibling b = Some q -> q < tree_len (b_tree b)) ->
  insert F d sp b = (b', Ok id) ->
  let n := tree_len (b_tree b) in
  id = n /\ map l_parent (t_nodes (b_tree b')) = map l_parent (t_nodes (b_tree b)) ++ [b_parent b] /\
  look (t_nodes (b_tree b')) n = Some (d, sp, None, None) /\
  (forall i d0 sp0 f0 x0, look (t_nodes (b_tree b)) i = Some (d0, sp0, f0, x0) ->
     look (t_nodes (b_tree b')) i = Some (d0, if opt_nat_eqb (b_parent b) (Some i) then set_end sp0 (s_end sp) else sp0,
       if opt_nat_eqb (b_parent b) (Some i) then or_new n f0 else f0, if opt_nat_eqb (b_sibling b) (Some i) then Some n else x0)) /\
  t_first (b_tree b') = match b_parent b with None => or_new n (t_first (b_tree b)) | Some _ => t_first (b_tree b) end /\
  t_span (b_tree b') = t_span (b_tree b) /\ b_cursor b' = b_cursor b /\ b_parent b' = b_parent b /\ b_sibling b' = None /\ b_checkpoint b' = b_checkpoint b.
Proof.
  intros Hp Hs E n. destruct (insert_firsts F HF _ _ _ _ _ E) as [_ E2]. revert E.
  unfold insert. rewrite pointer_new_full. destruct (_ <=? _)%N; [discriminate|]. unfold tree_push. rewrite (proj1 HF).
  cbn [storage_push option_map b_tree set_b_sibling b_parent b_sibling]. intros E. injection E as <- <-. fold n. cbv zeta in *.
  split; auto. fold n in E2.
  set (f := fun l : links T => set_l_span (set_end (l_span (set_l_last (Some n) (match l_first l with None => set_l_first (Some n) l | Some _ => l end))) (s_end sp))
        (set_l_last (Some n) (match l_first l with None => set_l_first (Some n) l | Some _ => l end))).
  match goal with |- context [t_nodes (b_tree (set_b_tree ?t _))] => set (t' := t) end.
  assert (N : t_nodes t' = opt_upd (b_sibling b) (set_l_next (Some n)) (opt_upd (b_parent b) f (t_nodes (b_tree b) ++ [Links d sp (b_parent b) (b_sibling b) None None None]))).
  { subst t'. destruct (b_sibling b), (b_parent b); simpl; auto; destruct (t_first (b_tree b)); auto. }
  assert (Sp : t_span t' = t_span (b_tree b)).
  { subst t'. destruct (b_sibling b), (b_parent b); simpl; auto; destruct (t_first (b_tree b)); auto. }
  assert (Tf : t_first t' = match b_parent b with Some _ => t_first (b_tree b) | None => or_new n (t_first (b_tree b)) end) by exact E2. clear E2.
  cbn [b_tree set_b_tree b_cursor b_parent b_sibling b_checkpoint]. rewrite N. clearbody t'.
  assert (NE : forall o : option nat, (forall i, o = Some i -> i < n) -> opt_nat_eqb o (Some n) = false).
  { intros o Ho. destruct (opt_nat_eqb o (Some n)) eqn:G; auto. apply opt_eqb in G. apply Ho in G. lia. }
  split; [|split; [|split; [|split; [exact Tf|split; [exact Sp|auto]]]]].
  - assert (M : forall o g (v : list (links T)), (forall l, l_parent (g l) = l_parent l) -> map l_parent (opt_upd o g v) = map l_parent v).
    { intros [i|] g v Hg; simpl; auto. revert i. induction v as [|x v IH]; intros [|i]; simpl; auto; [rewrite Hg|rewrite IH]; auto. }
    rewrite !M; [rewrite map_app; auto| |auto]. intros l. unfold f. destruct (l_first l); auto.
  - unfold look. rewrite !opt_upd_nth. rewrite !NE by auto. rewrite nth_error_app2, Nat.sub_diag by (unfold n, tree_len; auto). auto.
  - intros i d0 sp0 f0 x0 H. unfold look in *. rewrite !opt_upd_nth.
    destruct (nth_error (t_nodes (b_tree b)) i) as [l|] eqn:El; [|discriminate]. simpl in H. injection H as <- <- <- <-.
    rewrite nth_error_app1 by (eapply nth_lt; eauto). rewrite El.
    destruct (opt_nat_eqb (b_parent b) (Some i)), (opt_nat_eqb (b_sibling b) (Some i)); simpl; unfold f, or_new; auto; destruct (l_first l) eqn:G; simpl; rewrite ?G; auto.
Qed.

(** ** The relation *)
Fixpoint follows (ps : list (option nat)) (stk : list nat) : Prop :=
  match stk with [] => True | x :: r => nth_error ps x = Some (hd_error r) /\ follows ps r end.

Record csim b s : Prop := CS {
  cs_sees : sees (look (t_nodes (b_tree b))) (t_first (b_tree b)) (h_forest s);
  cs_parents : map l_parent (t_nodes (b_tree b)) = h_parents s;
  cs_follows : follows (h_parents s) (h_open s);
  cs_parent : b_parent b = hd_error (h_open s);
  cs_sibling : b_sibling b = h_last s;
  cs_cursor : b_cursor b = h_cursor s;
  cs_span : t_span (b_tree b) = h_span s;
}.
Definition to_cell (c : nat * option nat) : cell := Cell (fst c) (snd c).
Record sim w s : Prop := SM {
  sm_core : csim (w_builder w) s;
  sm_heap : w_heap w = map to_cell (h_cells s);
  sm_env : w_env w = h_handles s;
  sm_memo : b_checkpoint (w_builder w) = match h_cells s with [] => None | _ => Some (length (h_cells s) - 1) end;
}.

Lemma cs_len b s : csim b s -> length (h_parents s) = tree_len (b_tree b).
Proof. intros H. rewrite <- (cs_parents _ _ H), map_length. auto. Qed.

Lemma follows_stack ns stk : stack_inv (T := T) ns stk -> follows (map l_parent ns) stk.
Proof.
  induction stk as [|x r IH]; simpl; auto. intros [(l & E & H & _) [_ Hr]]. rewrite nth_error_map, E. simpl. rewrite H. auto.
Qed.
Lemma follows_unique ps a : follows ps a -> forall a', follows ps a' -> hd_error a = hd_error a' -> a = a'.
Proof.
  induction a as [|x r IH]; intros H [|y r'] H' E; try discriminate; auto. simpl in *. injection E as <-. destruct H, H'. f_equal. apply IH; auto. congruence.
Qed.
Lemma ok_stack h b s : ok h b -> csim b s -> exists lo hi cap, builder_inv b lo hi cap (h_open s) /\ cells_inv h (tree_len (b_tree b)) lo hi cap (h_open s).
Proof.
  intros (lo & hi & cap & stk & HB & HC) H. assert (stk = h_open s); [|subst stk; eauto 6].
  eapply follows_unique; [eapply follows_stack, (bi_stack _ _ _ _ _ HB)|rewrite (cs_parents _ _ H); apply (cs_follows _ _ H)|].
  rewrite <- (bi_parent _ _ _ _ _ HB). apply (cs_parent _ _ H).
Qed.
Lemma follows_app ps x stk : follows ps stk -> follows (ps ++ [x]) stk.
Proof.
  induction stk as [|y r IH]; simpl; auto. intros [H1 H2]. split; auto. rewrite nth_error_app1; auto. eapply nth_lt; eauto.
Qed.

Lemma h_full_spec b s : csim b s -> h_full F s = (int_max F (fl_width F) <=? N.of_nat (tree_len (b_tree b)))%N.
Proof. intros H. unfold h_full. rewrite (cs_len _ _ H). auto. Qed.

Lemma insert_full b d sp : (int_max F (fl_width F) <=? N.of_nat (tree_len (b_tree b)))%N = true -> insert F d sp b = (b, Err Overflow).
Proof. intros H. unfold insert. rewrite pointer_new_full, H. auto. Qed.
Lemma insert_room b d sp h : ok h b -> (int_max F (fl_width F) <=? N.of_nat (tree_len (b_tree b)))%N = false ->
  exists b', insert F d sp b = (b', Ok (tree_len (b_tree b))).
Proof.
  intros Hok H. destruct (ok_bounds _ _ Hok) as [Hp Hs]. destruct (insert_cases F HF b d sp Hp Hs) as [E|(b' & E & _)]; eauto.
  exfalso. revert E. unfold insert. rewrite pointer_new_full, H. unfold tree_push. rewrite (proj1 HF). discriminate.
Qed.

Lemma add_sim h b s d sp b' : ok h b -> placed b -> csim b s -> insert F d sp b = (b', Ok (tree_len (b_tree b))) ->
  csim (set_b_sibling (Some (tree_len (b_tree b))) b') (h_add d sp s) /\ b_sibling b' = None /\ b_checkpoint b' = b_checkpoint b.
Proof.
  intros Hok HP HS E. destruct (ok_bounds _ _ Hok) as [Hp Hs]. destruct (ok_stack _ _ _ Hok HS) as (lo & hi & cap & HB & _).
  destruct (insert_look _ _ _ _ _ Hp Hs E) as (_ & EP & En & Eo & Ef & Esp & Ec & Epa & Esi & Eck).
  pose proof (cs_len _ _ HS) as HL.
  assert (HLv : forall i d0 sp0 f0 x0, look (t_nodes (b_tree b)) i = Some (d0, sp0, f0, x0) -> level_first (b_tree b) (Some i) = f0).
  { intros i d0 sp0 f0 x0 H. unfold look in H. simpl. destruct (nth_error (t_nodes (b_tree b)) i); [|discriminate]. simpl in H. congruence. }
  pose proof (pl_sibling _ HP) as HPS.
  set (n := tree_len (b_tree b)) in *. set (ns := t_nodes (b_tree b)) in *. set (ns' := t_nodes (b_tree b')) in *.
  assert (Hlt : forall i v, look ns i = Some v -> i <> n).
  { intros i v H ->. assert (look ns n <> None) by congruence. apply look_some in H0. unfold n, tree_len in H0. fold ns in H0. lia. }
  set (g1 := fun i => if Nat.eqb i n then Some (d, sp, None, None) else
     match look ns i with Some (d0, sp0, f0, x0) => Some (d0, sp0, if opt_nat_eqb (b_parent b) (Some i) then or_new n f0 else f0, if opt_nat_eqb (b_sibling b) (Some i) then Some n else x0) | None => None end).
  assert (g1n : g1 n = Some (d, sp, None, None)) by (unfold g1; rewrite Nat.eqb_refl; auto).
  assert (g1o : forall i d0 sp0 f0 x0, look ns i = Some (d0, sp0, f0, x0) -> g1 i = Some (d0, sp0, if opt_nat_eqb (b_parent b) (Some i) then or_new n f0 else f0, if opt_nat_eqb (b_sibling b) (Some i) then Some n else x0)).
  { intros i d0 sp0 f0 x0 H. unfold g1. destruct (Nat.eqb_spec i n) as [Hi|_]; [exfalso; eapply Hlt; eauto|]. rewrite H. auto. }
  assert (NE : forall (o : option nat) i, o <> Some i -> opt_nat_eqb o (Some i) = false).
  { intros o i Ho. destruct (opt_nat_eqb o (Some i)) eqn:G; auto. apply opt_eqb in G. tauto. }
  set (x := Nd n KLeaf d sp []).
  set (f1 := match h_last s, h_open s with
     | Some s0, _ => flat_map (after_in s0 x) (h_forest s)
     | None, p :: _ => map (into p x) (h_forest s)
     | None, [] => h_forest s ++ [x] end).
  assert (S1 : sees g1 (t_first (b_tree b')) f1).
  { pose proof (cs_sees _ _ HS) as SE. fold ns in SE. unfold f1. rewrite <- (cs_sibling _ _ HS). pose proof (cs_parent _ _ HS) as EP1.
    destruct (b_sibling b) as [s0|] eqn:Es0.
    - destruct (bi_sibling _ _ _ _ _ HB s0 Es0) as (Hns & (l & El & Eln) & _). fold ns in El.
      assert (Ls : look ns s0 = Some (l_data l, l_span l, l_first l, None)) by (unfold look; rewrite El; simpl; rewrite Eln; auto).
      assert (Ne : level_first (b_tree b) (b_parent b) <> None).
      { intros G. apply HPS in G. discriminate. }
      assert (Tf : t_first (b_tree b') = t_first (b_tree b)).
      { rewrite Ef. destruct (b_parent b); auto. simpl in Ne. destruct (t_first (b_tree b)); auto. tauto. }
      rewrite Tf. refine (sees_after (look ns) g1 s0 n d sp _ _ _ KLeaf Ls _ g1n _ _ _ SE).
      + rewrite (g1o _ _ _ _ _ Ls). rewrite opt_eqb_refl. rewrite NE; auto. intros G. apply Hns. rewrite EP1 in G. destruct (h_open s); [discriminate|]. injection G as <-. left; auto.
      + intros i Hi Hk. destruct (look ns i) as [[[[d0 sp0] f0] x0]|] eqn:Ei; [|tauto]. rewrite (g1o _ _ _ _ _ Ei). rewrite (NE (Some s0)) by congruence.
        destruct (opt_nat_eqb (b_parent b) (Some i)) eqn:G; auto. apply opt_eqb in G. rewrite G in Ne. rewrite (HLv _ _ _ _ _ Ei) in Ne. destruct f0; auto. tauto.
    - assert (Ne : level_first (b_tree b) (b_parent b) = None) by (apply HPS; auto).
      destruct (h_open s) as [|p r] eqn:Eo'; simpl in EP1; rewrite EP1 in *.
      + simpl in Ne. rewrite Ef, Ne. simpl. rewrite Ne in SE. inversion SE; subst. simpl. apply se_node with (f := None) (nx := None); auto; constructor.
      + rewrite Ef. destruct (nth_in ns p (Hp p eq_refl)) as [l El].
        assert (Lp : look ns p = Some (l_data l, l_span l, None, l_next l)).
        { unfold look. rewrite El. simpl. simpl in Ne. fold ns in Ne. rewrite El in Ne. rewrite Ne. auto. }
        refine (sees_into (look ns) g1 p n d sp _ _ _ KLeaf Lp _ g1n _ _ _ SE).
        * rewrite (g1o _ _ _ _ _ Lp). rewrite opt_eqb_refl. auto.
        * intros i Hi Hk. destruct (look ns i) as [[[[d0 sp0] f0] x0]|] eqn:Ei; [|tauto]. rewrite (g1o _ _ _ _ _ Ei). rewrite (NE (Some p)) by congruence. auto. }
  split; [|auto]. unfold h_add. rewrite HL. fold x. fold f1. constructor; cbn [h_forest h_parents h_open h_last h_cursor h_span b_tree set_b_sibling b_parent b_sibling b_cursor].
  - fold ns'. unfold respan_level. cbn [h_forest h_open].
    destruct (h_open s) as [|p r] eqn:Eo'; pose proof (cs_parent _ _ HS) as EP1; rewrite Eo' in EP1; simpl in EP1.
    + eapply sees_ext; [exact S1|]. intros i Hi. apply (sees_known _ _ _ S1) in Hi. unfold g1 in Hi |- *. destruct (Nat.eqb_spec i n) as [Hin|_]; [rewrite Hin; exact En|].
      destruct (look ns i) as [[[[d0 sp0] f0] x0]|] eqn:Ei; [|tauto]. rewrite (Eo _ _ _ _ _ Ei). rewrite EP1. auto.
    + apply (sees_respan g1 (look ns') p (fun q => set_end q (s_end sp))); auto. intros i d0 sp0 f0 x0 H. unfold g1 in H. destruct (Nat.eqb_spec i n) as [Hin|_].
      * injection H as <- <- <- <-. rewrite Hin. destruct (Nat.eqb_spec n p) as [->|_]; auto. specialize (Hp _ EP1). lia.
      * destruct (look ns i) as [[[[d1 sp1] f2] x1]|] eqn:Ei; [|discriminate]. rewrite (Eo _ _ _ _ _ Ei). injection H as <- <- <- <-.
        rewrite EP1. unfold opt_nat_eqb at 1. rewrite (Nat.eqb_sym p i). auto.
  - rewrite <- (cs_parent _ _ HS), <- (cs_parents _ _ HS). exact EP.
  - apply follows_app, (cs_follows _ _ HS).
  - rewrite Epa. apply (cs_parent _ _ HS).
  - auto.
  - rewrite Ec. apply (cs_cursor _ _ HS).
  - rewrite Esp. apply (cs_span _ _ HS).
Qed.

(** ** Closing at a checkpoint *)
Lemma look_upd (ns : list (links T)) i f : (forall l, l_data (f l) = l_data l /\ l_span (f l) = l_span l /\ l_first (f l) = l_first l /\ l_next (f l) = l_next l) ->
  forall j, look (upd ns i f) j = look ns j.
Proof.
  intros H j. unfold look. rewrite nth_upd. destruct (Nat.eqb i j); auto. destruct (nth_error ns j) as [l|]; auto. simpl. destruct (H l) as (-> & -> & -> & ->). auto.
Qed.
Lemma restructure_look fuel p : forall x (ns : list (links T)) j, look (fst (restructure fuel p x ns)) j = look ns j.
Proof.
  induction fuel as [|fuel IH]; intros x ns j; simpl; auto. destruct (nth_error ns x) as [l|]; simpl; auto.
  destruct (l_next l); simpl; [rewrite IH|]; apply look_upd; auto.
Qed.
Lemma restructure_end fuel p : forall (ns : list (links T)) x r m z e, sees (look ns) (Some (r_id x)) (x :: r) ->
  restructure fuel p (r_id x) ns = (m, Ok (z, e)) -> e = run_end x r.
Proof.
  induction fuel as [|fuel IH]; intros ns x r m z e H E; simpl in E; [discriminate|].
  destruct x as [i k d sp kids]. simpl in H, E. inversion H as [|i1 d1 sp1 f nx k1 kids1 rest Ei H1 H2]; subst. unfold look in Ei.
  destruct (nth_error ns i) as [l|] eqn:El; [|discriminate]. simpl in Ei. injection Ei as <- <- <- <-.
  destruct (l_next l) as [y|] eqn:En.
  - assert (exists x' r', r = x' :: r' /\ r_id x' = y) as (x' & r' & -> & <-) by (inversion H2; subst; eauto). simpl.
    eapply IH; [|exact E]. eapply sees_ext; [exact H2|]. intros i0 _. apply look_upd. auto.
  - inversion H2; subst. simpl. congruence.
Qed.

Lemma sees_spans (g : nat -> option (facts T)) o l : sees g o l -> forall l', sees g o l' -> map r_span l' = map r_span l.
Proof.
  induction 1 as [|i d sp f nx k kids rest E H1 IH1 H2 IH2]; intros l' H'; inversion H'; subst; auto. simpl.
  assert (sp0 = sp /\ nx0 = nx) as [-> ->] by (split; congruence). f_equal. auto.
Qed.
Lemma run_end_spans (r r' : list (rose T)) : map r_span r' = map r_span r -> forall x x', r_span x' = r_span x -> run_end x' r' = run_end x r.
Proof.
  revert r'. induction r as [|y r IH]; intros [|y' r'] E x x' Ex; try discriminate; simpl; [congruence|]. injection E as E1 E2. auto.
Qed.

Lemma close_look h b a c d osp h' b' lid id X later : nth_error h a = Some c -> nth_error (t_nodes (b_tree b)) (c_node c) = Some lid ->
  close_at_gen F a d osp h b = (h', b', Ok id) ->
  sees (look (t_nodes (b_tree b))) (Some (c_node c)) (X :: later) -> r_id X = c_node c ->
  let n := tree_len (b_tree b) in let x := c_node c in
  look (t_nodes (b_tree b')) n = Some (d, match osp with Some sp => sp | None => run_span X later end, Some x, None) /\
  (forall i d0 sp0 f0 x0, look (t_nodes (b_tree b)) i = Some (d0, sp0, f0, x0) ->
     look (t_nodes (b_tree b')) i = Some (d0, sp0, if opt_nat_eqb (l_parent lid) (Some i) then redirect x n f0 else f0, if opt_nat_eqb (l_prev lid) (Some i) then Some n else x0)) /\
  t_first (b_tree b') = redirect x n (t_first (b_tree b)) /\
  t_span (b_tree b') = t_span (b_tree b) /\ b_cursor b' = b_cursor b /\ b_checkpoint b' = b_checkpoint b.
Proof.
  intros Ec El E HX HXi n x. revert E. unfold close_at_gen. rewrite Ec. destruct (negb _); [discriminate|]. rewrite pointer_new_full.
  destruct (_ <=? _)%N; [discriminate|]. rewrite El. fold n. fold x. cbv zeta.
  set (t0 := tree_upd x (fun l => set_l_prev None (set_l_parent (Some n) l)) (b_tree b)).
  assert (D0 : forall i, look (t_nodes t0) i = look (t_nodes (b_tree b)) i) by (intros i; unfold t0; simpl; apply look_upd; auto).
  destruct (match l_next lid with
        | Some next => restructure (S (tree_len t0)) n next (t_nodes t0)
        | None => (t_nodes t0, Ok (x, s_end (l_span lid))) end) as [m r] eqn:ER.
  assert (DR : forall i, look m i = look (t_nodes (b_tree b)) i).
  { intros i. rewrite <- D0. destruct (l_next lid) as [y|]; [|congruence]. pose proof (restructure_look (S (tree_len t0)) n y (t_nodes t0) i) as G. rewrite ER in G. exact G. }
  assert (DL : length m = n).
  { assert (G : forall i, i < length m <-> i < n) by (intros i; rewrite <- look_some, DR, look_some; unfold n, tree_len; tauto).
    destruct (Nat.lt_trichotomy (length m) n) as [H|[H|H]]; auto; apply G in H; lia. }
  destruct r as [[last e]|e|]; [|discriminate..].
  assert (DE : e = run_end X later).
  { fold x in HX. inversion HX as [|i1 d1 sp1 f1 nx1 k1 kids rest Ei H1 H2]; subst. unfold look in Ei. fold x in El. rewrite El in Ei. simpl in Ei. injection Ei as <- <- <- Enx.
    destruct (l_next lid) as [y|] eqn:En; subst nx1.
    - assert (exists x' r', later = x' :: r' /\ r_id x' = y) as (x' & r' & -> & <-) by (inversion H2; subst; eauto). simpl.
      eapply restructure_end; [|exact ER]. eapply sees_ext; [exact H2|]. auto.
    - inversion H2; subst. simpl. congruence. }
  assert (DS : Span (s_start (l_span lid)) e = run_span X later).
  { unfold run_span. rewrite DE. f_equal. inversion HX; subst. simpl. unfold look in H2. rewrite El in H2. simpl in H2. congruence. }
  rewrite DS.
  unfold tree_push. rewrite (proj1 HF). cbn [storage_push option_map]. intros E. injection E as <- <- <-.
  set (f := fun l : links T => if opt_nat_eqb (l_last (if opt_nat_eqb (l_first l) (Some x) then set_l_first (Some n) l else l)) (Some x) then set_l_last (Some n) (if opt_nat_eqb (l_first l) (Some x) then set_l_first (Some n) l else l) else (if opt_nat_eqb (l_first l) (Some x) then set_l_first (Some n) l else l)).
  match goal with |- context [set_t_nodes (t_nodes ?t ++ [Links _ ?sp _ _ _ _ _]) _] => set (t' := t); set (sp0 := sp) end.
  assert (N : t_nodes t' = opt_upd (l_prev lid) (set_l_next (Some n)) (opt_upd (l_parent lid) f m)).
  { subst t'. destruct (l_prev lid), (l_parent lid); simpl; destruct (opt_nat_eqb (t_first (b_tree b)) (Some x)); auto. }
  assert (Tf : t_first t' = redirect x n (t_first (b_tree b))).
  { subst t'. unfold redirect. destruct (l_prev lid), (l_parent lid); simpl; destruct (opt_nat_eqb (t_first (b_tree b)) (Some x)); auto. }
  assert (Sp : t_span t' = t_span (b_tree b)).
  { subst t'. destruct (l_prev lid), (l_parent lid); simpl; destruct (opt_nat_eqb (t_first (b_tree b)) (Some x)); auto. }
  cbn [b_tree set_b_tree set_b_sibling t_nodes set_t_nodes t_first b_cursor b_checkpoint t_span]. rewrite N. clearbody t'.
  assert (NL : length (opt_upd (l_prev lid) (set_l_next (Some n)) (opt_upd (l_parent lid) f m)) = n) by (rewrite !opt_upd_length; auto).
  split; [|split; [|split; [exact Tf|split; [exact Sp|auto]]]].
  - unfold look. rewrite nth_error_app2; rewrite NL; [|auto]. rewrite Nat.sub_diag. simpl. auto.
  - intros i d0 sp1 f0 x0 H. rewrite <- DR in H. unfold look in *. destruct (nth_error m i) as [l|] eqn:Em; [|discriminate]. simpl in H. injection H as <- <- <- <-.
    rewrite nth_error_app1 by (rewrite NL, <- DL; eapply nth_lt; eauto). rewrite !opt_upd_nth, Em.
    destruct (opt_nat_eqb (l_parent lid) (Some i)), (opt_nat_eqb (l_prev lid) (Some i)); simpl; unfold f, redirect; auto;
      destruct (opt_nat_eqb (l_first l) (Some x)) eqn:G; simpl; destruct (opt_nat_eqb (l_last l) (Some x)); simpl; rewrite ?G; auto.
Qed.

Lemma sees_nchain (ns : list (links T)) : forall r x, sees (look ns) (Some (r_id x)) (x :: r) -> exists z, nchain ns (r_id x) (map r_id (x :: r)) z.
Proof.
  induction r as [|y r IH]; intros [i k d sp kids] H; simpl in H; inversion H as [|i1 d1 sp1 f nx k1 kids1 rest Ei H1 H2]; subst; simpl; unfold look in Ei;
    destruct (nth_error ns i) as [l|] eqn:El; try discriminate; simpl in Ei; injection Ei as <- <- <- <-.
  - inversion H2; subst. exists i. econstructor; eauto.
  - assert (l_next l = Some (r_id y)) as En by (inversion H2; subst; auto). rewrite En in H2. destruct (IH y H2) as (z & Hz). exists z. econstructor; eauto.
Qed.
Lemma nchain_unique (ns : list (links T)) x C z : nchain ns x C z -> forall C' z', nchain ns x C' z' -> C' = C.
Proof.
  induction 1 as [x l E En|x l y C z E En HC IH]; intros C' z' H'; inversion H'; subst; try congruence.
  f_equal. eapply IH. assert (y0 = y) by congruence. subst. eauto.
Qed.

Lemma fold_upd_nth (v : option nat) (l : list (rose T)) ps i : nth_error (fold_right (fun y ps => upd ps (r_id y) (fun _ => v)) ps l) i =
  if in_dec Nat.eq_dec i (map r_id l) then option_map (fun _ => v) (nth_error ps i) else nth_error ps i.
Proof.
  induction l as [|y l IH]; [reflexivity|]. cbn [fold_right map]. rewrite nth_upd, IH. destruct (Nat.eqb_spec (r_id y) i) as [->|Hne].
  - destruct (in_dec Nat.eq_dec i (map r_id l)) as [H|H], (in_dec Nat.eq_dec i (i :: map r_id l)) as [Hn|Hn]; simpl in Hn; try (exfalso; tauto); destruct (nth_error ps i); auto.
  - destruct (in_dec Nat.eq_dec i (map r_id l)), (in_dec Nat.eq_dec i (r_id y :: map r_id l)) as [Hn|Hn]; simpl in Hn; auto; tauto.
Qed.
Lemma fold_upd_length (v : option nat) (l : list (rose T)) ps : length (fold_right (fun y ps => upd ps (r_id y) (fun _ => v)) ps l) = length ps.
Proof. induction l as [|y l IH]; simpl; auto. rewrite length_upd. auto. Qed.
Lemma follows_keep ps ps' stk : (forall i, In i stk -> nth_error ps' i = nth_error ps i) -> follows ps stk -> follows ps' stk.
Proof. induction stk as [|x r IH]; simpl; auto. intros H [H1 H2]. split; [rewrite H; auto|auto]. Qed.

Lemma wrap_sim h b s a c d osp h' b' lid X later : ok h b -> placed b -> csim b s -> NoDup (ids (h_forest s)) ->
  nth_error h a = Some c -> c_parent c = b_parent b -> nth_error (t_nodes (b_tree b)) (c_node c) = Some lid ->
  close_at_gen F a d osp h b = (h', b', Ok (tree_len (b_tree b))) -> wrapped h a b (c_node c) lid h' b' ->
  run_at (c_node c) (h_forest s) = Some (X, later) ->
  let n := tree_len (b_tree b) in
  csim b' (Shape (wrap_from (c_node c) (fun x later => Nd n KWrap d (match osp with Some sp => sp | None => run_span x later end) (x :: later)) (h_forest s))
             (fold_right (fun y ps => upd ps (r_id y) (fun _ => Some n)) (h_parents s) (X :: later) ++ [l_parent lid])
             (h_open s) (Some n) (h_cursor s) (h_span s) (upd (h_cells s) a (fun _ => (n, l_parent lid))) (h_handles s)) /\
  b_checkpoint b' = b_checkpoint b.
Proof.
  intros Hok HP HS Hnd Ea Hpar Eid E (C & z & Hch & (HL & H1 & H2) & -> & Ep & Es & _ & _) Hrun n.
  pose proof (run_at_spec _ _ _ (c_node c) (cs_sees _ _ HS)) as HR. rewrite Hrun in HR. destruct HR as (EX & HX & _).
  destruct (close_look _ _ _ _ _ _ _ _ _ _ _ _ Ea Eid E HX EX) as (L1 & L2 & Ef & Esp & Ec & Eck).
  destruct (ok_stack _ _ _ Hok HS) as (lo & hi & cap & HB & HC). pose proof (bi_table _ _ _ _ _ HB) as HT.
  fold n in L1, L2, Ef. set (ns := t_nodes (b_tree b)) in *. change (length ns) with n in *. set (x := c_node c) in *.
  assert (HCe : C = map r_id (X :: later)).
  { rewrite <- EX in HX, Hch. destruct (sees_nchain _ _ _ HX) as (z' & Hz'). eapply nchain_unique; eauto. }
  split; [|exact Eck].
  constructor; cbn [h_forest h_parents h_open h_last h_cursor h_span].
  - rewrite Ef. apply (sees_wrap (look ns) (look (t_nodes (b_tree b'))) x n d (match osp with Some sp => sp | None => run_span X later end)); auto.
    + intros i d0 sp0 f0 x0 H. rewrite (L2 _ _ _ _ _ H). unfold look in H. destruct (nth_error ns i) as [l|] eqn:Ei; [|discriminate]. simpl in H. injection H as <- <- <- <-.
      f_equal. f_equal; [f_equal|].
      * destruct (opt_nat_eqb (l_parent lid) (Some i)) eqn:G; auto. symmetry. apply redirect_same. intros Hf.
        destruct (pl_first _ HP (Some i) x) as (l' & El' & _ & Hl'); [simpl; fold ns; rewrite Ei; auto|]. fold ns in El'. assert (l' = lid) by congruence. subst l'.
        rewrite Hl', opt_eqb_refl in G. discriminate.
      * destruct (opt_nat_eqb (l_prev lid) (Some i)) eqn:G.
        -- apply opt_eqb in G. destruct (li_prev _ _ _ _ _ _ (HT _ _ Eid) i G) as (_ & _ & _ & l' & El' & Hl'). fold ns in El'. assert (l' = l) by congruence. subst l'.
           rewrite Hl'. symmetry. apply redirect_id.
        -- symmetry. apply redirect_same. intros Hn. destruct (li_next _ _ _ _ _ _ (HT _ _ Ei) x Hn) as (_ & _ & _ & l' & El' & Hl'). fold ns in El'.
           assert (l' = lid) by congruence. subst l'. rewrite Hl', opt_eqb_refl in G. discriminate.
    + intros x' r' Hx'. exists KWrap. pose proof (sees_spans _ _ _ HX _ Hx') as Hu. injection Hu as U1 U2.
      destruct osp; auto. unfold run_span. rewrite U1, (run_end_spans later r' U2 X x' U1). auto.

    + apply (cs_sees _ _ HS).
  - rewrite <- (cs_parents _ _ HS). fold ns. apply nth_ext_opt.
    + rewrite map_length, HL, app_length, fold_upd_length, map_length. simpl. unfold n, tree_len. fold ns. lia.
    + intros i Hi. rewrite map_length, HL in Hi. rewrite nth_error_map. destruct (nth_in (t_nodes (b_tree b')) i) as [l' E']; [lia|]. rewrite E'. cbn [option_map].
      destruct (Nat.eq_dec i n) as [->|Hne].
      * rewrite nth_error_app2; rewrite fold_upd_length, map_length; [|auto]. unfold n at 1, tree_len. fold ns. rewrite Nat.sub_diag. simpl. destruct (H2 _ E') as (-> & _). auto.
      * destruct (H1 _ _ E') as (l & El & G & _); [lia|]. rewrite nth_error_app1 by (rewrite fold_upd_length, map_length; unfold n, tree_len in *; fold ns in Hi, Hne; lia).
        rewrite fold_upd_nth. rewrite <- HCe, nth_error_map, El, G. simpl. destruct (in_dec Nat.eq_dec i C); auto.
  - apply follows_app. eapply follows_keep; [|apply (cs_follows _ _ HS)]. intros i Hi. rewrite fold_upd_nth, <- HCe.
    destruct (in_dec Nat.eq_dec i C) as [Hc|]; auto. exfalso.
    destruct (HC a c Ea) as [_ Hcell]. pose proof (bi_stack _ _ _ _ _ HB) as Hst. pose proof (bi_parent _ _ _ _ _ HB) as Hbp.
    destruct (h_open s) as [|p r]; [destruct Hi|]. simpl in Hbp. destruct (Hcell p) as [_ Hin]; [congruence|]. fold x in Hin.
    destruct Hin as [Q1 _]; [eapply nth_lt; eauto|left; auto|].
    destruct (stack_nested _ _ _ _ HT _ i p Hst Hi) as [Q2 _]. destruct (chain_facts _ _ _ _ _ _ _ HT Hch i Hc) as (_ & _ & Q3 & _). lra.
  - rewrite Ep. apply (cs_parent _ _ HS).
  - rewrite Es. auto.
  - rewrite Ec. apply (cs_cursor _ _ HS).
  - rewrite Esp. apply (cs_span _ _ HS).
Qed.

(** ** Steps *)
Lemma csim_ids w s : wplaced w -> csim (w_builder w) s ->
  NoDup (ids (h_forest s)) /\ forall i, In i (ids (h_forest s)) <-> i < tree_len (b_tree (w_builder w)).
Proof.
  intros Hw HS. destruct (placed_reads _ _ Hw) as (_ & _ & H).
  specialize (H _ (sees_reads _ _ _ _ (cs_sees _ _ HS))). split.
  - eapply Permutation_NoDup; [apply Permutation_sym; exact H|apply seq_NoDup].
  - intros i. split; intros Hi.
    + apply (Permutation_in i H) in Hi. apply in_seq in Hi. lia.
    + apply (Permutation_in i (Permutation_sym H)). apply in_seq. lia.
Qed.

Lemma sees_find (g : nat -> option (facts T)) p o l : sees g o l -> In p (ids l) -> exists x f nx, find (fun y => Nat.eqb (r_id y) p) (preorder_list l) = Some x /\ g p = Some (r_data x, r_span x, f, nx).
Proof.
  induction 1 as [|i d sp f nx k kids rest E H1 IH1 H2 IH2]; intros Hp; [destruct Hp|]. rewrite ids_cons in Hp. simpl in Hp. rewrite in_app_iff in Hp.
  unfold preorder_list in *. cbn [flat_map preorder app find r_id]. destruct (Nat.eqb_spec i p) as [->|Hne].
  - exists (Nd p k d sp kids), f, nx. auto.
  - assert (G : forall (u v : list (rose T)), ~ In p (map r_id u) -> find (fun y => Nat.eqb (r_id y) p) (u ++ v) = find (fun y => Nat.eqb (r_id y) p) v).
    { induction u as [|y u IH]; simpl; intros v Hn; auto. destruct (Nat.eqb_spec (r_id y) p); [tauto|]. apply IH. tauto. }
    assert (G2 : forall (u v : list (rose T)) x, find (fun y => Nat.eqb (r_id y) p) u = Some x -> find (fun y => Nat.eqb (r_id y) p) (u ++ v) = Some x).
    { induction u as [|y u IH]; simpl; intros v x Hx; [discriminate|]. destruct (Nat.eqb (r_id y) p); auto. }
    destruct (in_dec Nat.eq_dec p (map r_id (flat_map preorder kids))) as [Hi|Hi].
    + destruct (IH1 Hi) as (x & f0 & nx0 & A & B). exists x, f0, nx0. split; auto.
    + rewrite G by auto. apply IH2. tauto.
Qed.

Lemma respan_look (ns : list (links T)) p f fs o l : (forall x, f x = set_l_span (fs (l_span x)) x) -> sees (look ns) o l -> sees (look (upd ns p f)) o (map (respan p fs) l).
Proof.
  intros Hf. apply sees_respan. intros i d sp f0 nx H. unfold look in *. rewrite nth_upd. destruct (nth_error ns i) as [x|]; [|discriminate]. simpl in H. injection H as <- <- <- <-.
  rewrite (Nat.eqb_sym i p). destruct (Nat.eqb p i); simpl; auto. rewrite Hf. auto.
Qed.
Lemma map_parent_upd (ns : list (links T)) p f : (forall x, l_parent (f x) = l_parent x) -> map l_parent (upd ns p f) = map l_parent ns.
Proof. intros Hf. revert p. induction ns as [|x v IH]; intros [|p]; simpl; auto; [rewrite Hf|rewrite IH]; auto. Qed.

(** Giving the innermost open node another span. *)
Lemma widen_sim b s p r sp f : csim b s -> h_open s = p :: r -> (forall x, f x = set_l_span (span_join (l_span x) sp) x) ->
  csim (set_b_tree (tree_upd p f (b_tree b)) b) (h_widen sp s).
Proof.
  intros [H1 H2 H3 H4 H5 H6 H7] Ho Hf. constructor; simpl; auto.
  - unfold respan_level. rewrite Ho. apply respan_look; auto.
  - rewrite map_parent_upd; auto. intros x. rewrite Hf. auto.
Qed.
Lemma widen_root b s sp : csim b s -> h_open s = [] -> csim b (h_widen sp s).
Proof. intros [H1 H2 H3 H4 H5 H6 H7] Ho. constructor; simpl; auto. unfold respan_level. rewrite Ho. auto. Qed.
Lemma move_sim b s c : csim b s -> csim (set_b_cursor c b) (h_move c s).
Proof. intros [H1 H2 H3 H4 H5 H6 H7]. constructor; simpl; auto. Qed.
Lemma stretch_sim b s e : csim b s -> csim (set_b_tree (set_t_span (set_end (t_span (b_tree b)) e) (b_tree b)) b) (h_stretch e s).
Proof. intros [H1 H2 H3 H4 H5 H6 H7]. constructor; simpl; auto. rewrite H7. auto. Qed.
Lemma enter_sim b s n : csim b s -> nth_error (h_parents s) n = Some (hd_error (h_open s)) -> csim (set_b_sibling None (set_b_parent (Some n) b)) (h_enter n s).
Proof. intros [H1 H2 H3 H4 H5 H6 H7] Hn. constructor; simpl; auto. Qed.

Definition agrees (x : builder T * out) (y : shape T * out) b : Prop :=
  snd x = snd y /\ csim (fst x) (fst y) /\ b_checkpoint (fst x) = b_checkpoint b.
Definition keeps (s s' : shape T) : Prop := h_cells s' = h_cells s /\ h_handles s' = h_handles s.

Lemma open_sim h b s d sp : ok h b -> placed b -> csim b s ->
  agrees (let '(b', r) := open_with F d sp b in (b', out_node r)) (h_open_with F d sp s) b /\ keeps s (fst (h_open_with F d sp s)).
Proof.
  intros Hok HP HS. unfold h_open_with, open_with. rewrite (h_full_spec _ _ HS). destruct (_ <=? _)%N eqn:Ef.
  - rewrite insert_full by auto. split; [split; [|split]|split]; auto.
  - destruct (insert_room b d sp h Hok Ef) as (b' & E). rewrite E. destruct (add_sim _ _ _ _ _ _ Hok HP HS E) as (A & B & C).
    rewrite (cs_len _ _ HS). split; [split; [|split]|split]; auto. simpl fst.
    assert (G : csim (set_b_sibling None (set_b_parent (Some (tree_len (b_tree b))) (set_b_sibling (Some (tree_len (b_tree b))) b'))) (h_enter (tree_len (b_tree b)) (h_add d sp s))).
    { apply enter_sim; auto. simpl. rewrite nth_error_app2; rewrite (cs_len _ _ HS); auto. rewrite Nat.sub_diag. auto. }
    destruct b' as [t ck pa si cu]. simpl in B. subst si. exact G.
Qed.

Lemma close_sim w s : wplaced w -> csim (w_builder w) s ->
  agrees (let '(b', r) := close (w_builder w) in (b', out_unit r)) (h_close s) (w_builder w) /\ keeps s (fst (h_close s)).
Proof.
  intros Hw HS. destruct (csim_ids _ _ Hw HS) as [_ Hids]. destruct Hw as [[Hok _] HP]. set (b := w_builder w) in *.
  destruct (ok_stack _ _ _ Hok HS) as (lo & hi & cap & HB & _). unfold close, h_close. rewrite (cs_parent _ _ HS).
  destruct (h_open s) as [|p up] eqn:Eo; simpl hd_error; [split; [split; [|split]|split]; auto|].
  cbv zeta. cbn [b_tree set_b_parent set_b_sibling].
  pose proof (bi_stack _ _ _ _ _ HB) as Hst. try rewrite Eo in Hst. destruct Hst as [(l & El & Ep & _) [_ Hst]]. rewrite El.
  assert (Hp : In p (ids (h_forest s))) by (apply Hids; eapply nth_lt; eauto).
  destruct (sees_find _ _ _ _ (cs_sees _ _ HS) Hp) as (x & f & nx & -> & Ex). unfold look in Ex. rewrite El in Ex. simpl in Ex. injection Ex as Ed Es _ _. rewrite <- Es.
  assert (HS1 : forall q, hd_error up = q -> csim (set_b_parent q (set_b_sibling (Some p) b))
      (Shape (h_forest s) (h_parents s) up (Some p) (h_cursor s) (h_span s) (h_cells s) (h_handles s))).
  { destruct HS as [H1 H2 H3 H4 H5 H6 H7]. intros q Hq. constructor; simpl; auto. rewrite Eo in H3. apply H3. }
  rewrite Ep. destruct up as [|q r]; simpl hd_error.
  - split; [split; [|split]|split]; auto. simpl fst. apply (move_sim (set_b_parent None (set_b_sibling (Some p) b))). apply widen_root; auto.
  - destruct Hst as [(lq & Eq & _) _]. rewrite Eq. split; [split; [|split]|split]; auto. simpl fst.
    apply (move_sim (set_b_tree (tree_upd q _ (b_tree (set_b_parent (Some q) (set_b_sibling (Some p) b)))) (set_b_parent (Some q) (set_b_sibling (Some p) b)))).
    eapply widen_sim; auto; reflexivity.
Qed.

Lemma push_span t ix i t' : tree_push_index F ix i t = Some t' -> t_span (T := T) t' = t_span t.
Proof. unfold tree_push_index. destruct (proj2 HF) as [-> | ->]; simpl; intros E; injection E as <-; auto. Qed.
Lemma index_sim b s t' : csim b s -> t_nodes t' = t_nodes (b_tree b) -> t_first t' = t_first (b_tree b) -> t_span t' = t_span (b_tree b) -> csim (set_b_tree t' b) s.
Proof. intros [H1 H2 H3 H4 H5 H6 H7] E1 E2 E3. constructor; simpl; auto; rewrite ?E1, ?E2, ?E3; auto. Qed.

Lemma token_sim h b s d len : ok h b -> placed b -> csim b s ->
  agrees (let '(b', r) := token F d len b in (b', out_node r)) (h_token F d len s) b /\ keeps s (fst (h_token F d len s)).
Proof.
  intros Hok HP HS. unfold token, h_token.
  assert (G : forall sp b0 s0, ok h b0 -> placed b0 -> csim b0 s0 -> b_checkpoint b0 = b_checkpoint b -> keeps s s0 ->
    agrees (let '(b', r) := (match insert F d sp b0 with
    | (b, Ok id) =>
      let b := set_b_sibling (Some id) b in
      if len_is_empty F len then (b, Ok id)
      else
        match tree_push_index F (b_cursor b) id (b_tree b) with
        | None => (b, Err FlavorError)
        | Some t => (set_b_tree t b, Ok id)
        end
    | r => r
    end) in (b', out_node r)) (if h_full F s0 then (s0, RErr Overflow) else (h_add d sp s0, RNode (length (h_parents s0)))) b /\
    keeps s (fst (if h_full F s0 then (s0, RErr Overflow) else (h_add d sp s0, RNode (length (h_parents s0)))))).
  { intros sp b0 s0 H0 HP0 HS0 Eck Hk. rewrite (h_full_spec _ _ HS0). destruct (_ <=? _)%N eqn:Ef.
    - rewrite insert_full by auto. split; [split; [|split]|]; auto.
    - destruct (insert_room b0 d sp h H0 Ef) as (b' & E). rewrite E. destruct (add_sim _ _ _ _ _ _ H0 HP0 HS0 E) as (A & B & C).
      rewrite (cs_len _ _ HS0). cbv zeta. set (b1 := set_b_sibling (Some (tree_len (b_tree b0))) b') in *.
      assert (Ck1 : b_checkpoint b1 = b_checkpoint b) by (simpl; congruence).
      destruct (len_is_empty F len).
      + split; [split; [|split]|]; auto.
      + destruct (push_index_cases F HF (b_tree b1) (b_cursor b1) (tree_len (b_tree b0))) as (t' & Et & E1 & E2 & E3). pose proof (push_span _ _ _ _ Et) as E4.
        rewrite Et. split; [split; [|split]|]; auto. simpl fst. apply index_sim; auto. }
  cbv zeta in G. cbv zeta. destruct (len_is_empty F len) eqn:El.
  - rewrite <- (cs_cursor _ _ HS). apply G; auto. split; auto.
  - rewrite <- (cs_cursor _ _ HS). destruct (ix_checked_add_len F (b_cursor b) len) as [c|].
    + pose proof (stretch_sim _ _ c (move_sim _ _ c HS)) as HS1.
      assert (Eh : h_full F s = h_full F (h_stretch c (h_move c s))) by reflexivity. rewrite Eh.
      change (length (h_parents s)) with (length (h_parents (h_stretch c (h_move c s)))).
      apply G; auto; [| |split; auto].
      * eapply ok_ext; [exact Hok|..]; simpl; auto. apply same_ptrs_refl.
      * eapply placed_ext; [exact HP|..]; simpl; auto. apply same_ptrs_refl.
    + split; [split; [|split]|split]; auto.
Qed.

Lemma token_with_sim h b s d sp : ok h b -> placed b -> csim b s ->
  agrees (let '(b', r) := token_with F d sp b in (b', out_node r)) (h_token_with F d sp s) b /\ keeps s (fst (h_token_with F d sp s)).
Proof.
  intros Hok HP HS. unfold token_with, h_token_with. rewrite (h_full_spec _ _ HS). destruct (_ <=? _)%N eqn:Ef.
  - rewrite insert_full by auto. split; [split; [|split]|split]; auto.
  - destruct (insert_room b d sp h Hok Ef) as (b' & E). rewrite E. destruct (add_sim _ _ _ _ _ _ Hok HP HS E) as (A & B & C).
    rewrite (cs_len _ _ HS). cbv zeta. set (b1 := set_b_sibling (Some (tree_len (b_tree b))) b') in *.
    assert (Ck1 : b_checkpoint b1 = b_checkpoint b) by (simpl; congruence).
    destruct (push_index_cases F HF (b_tree b1) (s_start sp) (tree_len (b_tree b))) as (t' & Et & E1 & E2 & E3). pose proof (push_span _ _ _ _ Et) as E4.
    rewrite Et. pose proof (index_sim _ _ _ A E1 E2 E4) as A1. split; [split; [|split]|split]; auto. cbn [fst].
    pose proof (cs_parent _ _ A) as Ep. cbn [h_add h_open] in Ep. rewrite Ep. destruct (h_open s) as [|p r] eqn:Eo; simpl hd_error.
    + apply (move_sim (set_b_tree t' b1)). apply widen_root; auto.
    + apply (move_sim (set_b_tree _ b1)).
      apply (widen_sim (set_b_tree t' b1) (h_add d sp s) p r sp (fun l => set_l_span (span_join (l_span l) sp) l)); auto.
Qed.

Lemma close_at_sim w s a id lv d osp : wplaced w -> csim (w_builder w) s -> w_heap w = map to_cell (h_cells s) -> nth_error (h_cells s) a = Some (id, lv) ->
  forall k, nth_error (h_handles s) k = Some a ->
  let '(h', b', r) := close_at_gen F a d osp (w_heap w) (w_builder w) in
  let '(s', r') := h_close_at F k d osp s in
  out_node r = r' /\ csim b' s' /\ h' = map to_cell (h_cells s') /\ length (h_cells s') = length (h_cells s) /\ h_handles s' = h_handles s /\ b_checkpoint b' = b_checkpoint (w_builder w).
Proof.
  intros Hw HS Hh Ea k Ek. destruct (csim_ids _ _ Hw HS) as [Hnd Hids]. destruct Hw as [[Hok _] HP]. set (b := w_builder w) in *. set (h := w_heap w) in *.
  assert (Eh : nth_error h a = Some (Cell id lv)) by (rewrite Hh, nth_error_map, Ea; auto).
  unfold h_close_at. rewrite Ek, Ea, <- (cs_parent _ _ HS), (h_full_spec _ _ HS), (cs_len _ _ HS).
  destruct (opt_nat_eqb lv (b_parent b)) eqn:El.
  2:{ unfold close_at_gen. rewrite Eh. cbn [c_node c_parent]. rewrite El. cbn [negb]. auto 8. }
  cbn [negb]. destruct (int_max F (fl_width F) <=? N.of_nat (tree_len (b_tree b)))%N eqn:Ef.
  { unfold close_at_gen. rewrite Eh. cbn [c_node c_parent]. rewrite El, pointer_new_full, Ef. cbn [negb]. auto 8. }
  destruct (nth_error (t_nodes (b_tree b)) id) as [lid|] eqn:Eid.
  - destruct (run_at id (h_forest s)) as [[X later]|] eqn:Er.
    2:{ exfalso. pose proof (run_at_spec _ _ _ id (cs_sees _ _ HS)) as G. rewrite Er in G. apply G, Hids. eapply nth_lt; eauto. }
    destruct (close_at_cases F HF h b a (Cell id lv) d osp Hok Eh) as [(e & E & He)|[(b' & E & HI)|(lid' & h' & b' & Hpa & Eid' & E & HW)]].
    + exfalso. apply opt_eqb in El. destruct He as [[_ He]|(_ & _ & He)]; [simpl in He; tauto|]. rewrite pointer_new_full, Ef in He. discriminate.
    + exfalso. destruct (close_firsts F HF _ _ _ _ _ _ _ _ _ _ Hok Eh Eid E) as [F1 _]. simpl in F1.
      destruct HI as ((HL & _ & H2) & _). destruct (nth_in (t_nodes (b_tree b')) (length (t_nodes (b_tree b)))) as [l' E']; [lia|].
      destruct (H2 _ E') as (_ & _ & _ & G & _). apply (f_equal (fun v => nth_error v (length (t_nodes (b_tree b))))) in F1.
      unfold firsts at 1 in F1. rewrite nth_error_map, E' in F1. simpl in F1. rewrite G in F1.
      rewrite nth_error_app2 in F1; rewrite opt_upd_length in *; unfold firsts in *; rewrite map_length in *; auto. rewrite Nat.sub_diag in F1. discriminate.
    + simpl in Eid'. assert (lid' = lid) by congruence. subst lid'. rewrite E.
      destruct (wrap_sim _ _ _ _ _ _ _ _ _ _ _ _ Hok HP HS Hnd Eh Hpa Eid E HW Er) as [A B].
      assert (Epar : match nth_error (h_parents s) id with Some o => o | None => None end = l_parent lid).
      { rewrite <- (cs_parents _ _ HS), nth_error_map. fold b. rewrite Eid. auto. }
      cbv zeta. rewrite Epar. split; auto. split; auto. split; [|split; [apply length_upd|split; [auto|exact B]]].
      destruct HW as (_ & _ & _ & _ & -> & _). cbn [h_cells]. rewrite Hh. clear. revert a. induction (h_cells s) as [|c v IH]; intros [|a]; simpl; auto. rewrite IH. auto.
  - destruct (run_at id (h_forest s)) as [[X later]|] eqn:Er.
    { exfalso. pose proof (run_at_spec _ _ _ id (cs_sees _ _ HS)) as G. rewrite Er in G. destruct G as (_ & _ & G). apply Hids in G. apply nth_error_None in Eid. unfold tree_len in G. fold b in G. lia. }
    unfold close_at_gen. rewrite Eh. cbn [c_node c_parent]. rewrite El, pointer_new_full, Ef. cbn [negb]. rewrite Eid. rewrite <- (cs_cursor _ _ HS).
    destruct (insert_room b d (match osp with Some sp => sp | None => span_point (b_cursor b) end) h Hok Ef) as (b' & E). rewrite E.
    destruct (add_sim _ _ _ _ _ _ Hok HP HS E) as (A & B & C).
    assert (tree_len (b_tree b) = id) as Hid.
    { destruct Hok as (lo & hi & cap & stk & HB & HC). destruct (HC a _ Eh) as [Hle _]. simpl in Hle. apply nth_error_None in Eid. unfold tree_len in *. lia. }
    rewrite <- Hid, Nat.eqb_refl. split; auto. 
Qed.

Lemma step_sim w s o : wplaced w -> sim w s ->
  let '(w', r) := step F w o in let '(s', r') := h_step F s o in r = r' /\ sim w' s'.
Proof.
  intros Hw HS. destruct HS as [HS Hh He Hm]. assert (Hw' := Hw). destruct Hw' as [[Hok Henv] HP]. destruct w as [h b env]. simpl in Hok, Henv, HP, HS, Hh, He, Hm.
  assert (K : forall (x : builder T * out) (y : shape T * out), agrees x y b /\ keeps s (fst y) ->
     let '(w', r) := (World h (fst x) env, snd x) in let '(s', r') := y in r = r' /\ sim w' s').
  { intros [b' r] [s' r'] [(A & B & C) [D E]]. simpl in A, B, C, D, E. simpl. split; auto. constructor; simpl; rewrite ?D, ?E, ?C; auto. }
  destruct o; simpl step; simpl h_step.
  - change (open F d b) with (open_with F d (span_point (b_cursor b)) b). rewrite <- (cs_cursor _ _ HS).
    pose proof (K _ _ (open_sim h b s d (span_point (b_cursor b)) Hok HP HS)) as A. destruct (open_with F d _ b) as [b' r]. exact A.
  - pose proof (K _ _ (open_sim h b s d sp Hok HP HS)) as A. destruct (open_with F d sp b) as [b' r]. exact A.
  - pose proof (K _ _ (close_sim (World h b env) s Hw HS)) as A. simpl w_builder in A. destruct (close b) as [b' r]. exact A.
  - pose proof (K _ _ (token_sim h b s d len Hok HP HS)) as A. destruct (token F d len b) as [b' r]. exact A.
  - unfold token_empty. change len_EMPTY with 0%N. pose proof (K _ _ (token_sim h b s d 0%N Hok HP HS)) as A. destruct (token F d 0%N b) as [b' r]. exact A.
  - pose proof (K _ _ (token_with_sim h b s d sp Hok HP HS)) as A. destruct (token_with F d sp b) as [b' r]. exact A.
  - unfold checkpoint, h_checkpoint. rewrite pointer_new_full, (h_full_spec _ _ HS). destruct (_ <=? _)%N; [split; auto; constructor; auto|].
    rewrite Hm. rewrite (cs_len _ _ HS), <- (cs_parent _ _ HS). cbn [fst snd].
    assert (Fr : sim (World (h ++ [Cell (tree_len (b_tree b)) (b_parent b)]) (set_b_checkpoint (Some (length h)) b) (env ++ [length h]))
       (Shape (h_forest s) (h_parents s) (h_open s) (h_last s) (h_cursor s) (h_span s) (h_cells s ++ [(tree_len (b_tree b), b_parent b)]) (h_handles s ++ [length (h_cells s)]))).
    { assert (Lh : length h = length (h_cells s)) by (rewrite Hh, map_length; auto). constructor; simpl.
      - destruct HS. constructor; auto.
      - rewrite map_app, Hh. auto.
      - rewrite He, Lh. auto.
      - rewrite app_length. simpl. destruct (h_cells s); simpl in *; rewrite Lh; auto. f_equal. lia. }
    destruct (h_cells s) as [|c0 cs] eqn:Ecs.
    + simpl last_error. split; auto.
    + rewrite <- Ecs in *. assert (Hne : h_cells s <> []) by (rewrite Ecs; discriminate).
      destruct (last_error (h_cells s)) as [[i o]|] eqn:El.
      2:{ exfalso. rewrite Ecs in El. clear -El. revert c0 El. induction cs as [|y cs IH]; intros c0 El; [discriminate|]. apply (IH y). exact El. }
      assert (En : nth_error h (length (h_cells s) - 1) = Some (Cell i o)).
      { rewrite Hh, nth_error_map. enough (G : nth_error (h_cells s) (length (h_cells s) - 1) = Some (i, o)) by (rewrite G; auto).
        clear -El. revert El. induction (h_cells s) as [|x [|y v] IH]; [discriminate|simpl; auto|]. intros El. specialize (IH El). simpl in IH |- *. rewrite Nat.sub_0_r in IH. exact IH. }
      rewrite En. cbn [c_node c_parent]. destruct (Nat.eqb i (tree_len (b_tree b)) && opt_nat_eqb o (b_parent b)).
      * split; auto. constructor; simpl; auto. { destruct HS; constructor; auto. } { rewrite He; auto. } { rewrite Ecs. rewrite Hm, Ecs. auto. }
      * split; auto.
  - rewrite He. destruct (nth_error (h_handles s) k) as [a|] eqn:Ek.
    2:{ unfold h_close_at. rewrite Ek. split; auto. constructor; auto. }
    assert (Ha : exists id lv, nth_error (h_cells s) a = Some (id, lv)).
    { destruct (nth_in (h_cells s) a) as [[id lv] E]; eauto. rewrite <- (map_length to_cell), <- Hh. apply Henv. rewrite He. eapply nth_error_In; eauto. }
    destruct Ha as (id & lv & Ea). pose proof (close_at_sim (World h b env) s a id lv d None Hw HS Hh Ea k Ek) as A. cbn [w_heap w_builder] in A. unfold close_at.
    destruct (close_at_gen F a d None h b) as [[h' b'] r]. destruct (h_close_at F k d None s) as [s' r']. destruct A as (A1 & A2 & A3 & A4 & A5 & A6).
    split; auto. constructor; simpl; auto; try congruence. rewrite A6, Hm. destruct (h_cells s), (h_cells s'); simpl in *; auto; congruence.
  - rewrite He. destruct (nth_error (h_handles s) k) as [a|] eqn:Ek.
    2:{ unfold h_close_at. rewrite Ek. split; auto. constructor; auto. }
    assert (Ha : exists id lv, nth_error (h_cells s) a = Some (id, lv)).
    { destruct (nth_in (h_cells s) a) as [[id lv] E]; eauto. rewrite <- (map_length to_cell), <- Hh. apply Henv. rewrite He. eapply nth_error_In; eauto. }
    destruct Ha as (id & lv & Ea). pose proof (close_at_sim (World h b env) s a id lv d (Some sp) Hw HS Hh Ea k Ek) as A. cbn [w_heap w_builder] in A. unfold close_at_with.
    destruct (close_at_gen F a d (Some sp) h b) as [[h' b'] r]. destruct (h_close_at F k d (Some sp) s) as [s' r']. destruct A as (A1 & A2 & A3 & A4 & A5 & A6).
    split; auto. constructor; simpl; auto; try congruence. rewrite A6, Hm. destruct (h_cells s), (h_cells s'); simpl in *; auto; congruence.
  - split; auto. constructor; simpl; auto. apply move_sim; auto.
Qed.

Lemma sim_new : sim world_new shape_new.
Proof. constructor; simpl; auto. constructor; simpl; auto. constructor. Qed.

Lemma run_sim ops : forall w s, wplaced w -> sim w s ->
  let '(w', rs) := run F w ops in let '(s', rs') := h_run F s ops in rs = rs' /\ sim w' s' /\ wplaced w'.
Proof.
  induction ops as [|o ops IH]; intros w s Hw HS; simpl; auto.
  pose proof (step_sim w s o Hw HS) as A.
  assert (Hw1 : wplaced (fst (step F w o))) by (split; [apply step_ok; auto; apply Hw|apply step_placed; auto]).
  destruct (step F w o) as [w1 r1]. destruct (h_step F s o) as [s1 r1']. destruct A as [-> A]. simpl in Hw1. specialize (IH w1 s1 Hw1 A).
  destruct (run F w1 ops) as [w2 rs]. destruct (h_run F s1 ops) as [s2 rs']. destruct IH as (-> & B & C). auto.
Qed.
End Sim.
