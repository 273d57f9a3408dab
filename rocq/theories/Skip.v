(** [skip_tokens()] and [next_node()]. *)
From Coq Require Import Lia Permutation.
From Verif Require Import Base Pointer Index Tree Builder Hist Node Iter Spec Rep Marks Refine
  TreeRep Enum Walk WalkTree Bounds WalkThms Nav.

Lemma view_has {T} (n : node T) x : view n = rview x -> has_children n = has_kids x.
Proof. unfold view, rview. congruence. Qed.

Lemma cons_eq {A} (a b : A) l m : a :: l = b :: m -> a = b /\ l = m.
Proof. intros E. split; congruence. Qed.

Lemma filter_views {T} (items : list (node T)) xs : map view items = map rview xs ->
  map view (filter (fun n => has_children n) items) = map rview (filter has_kids xs).
Proof.
  revert xs; induction items as [|n items IH]; intros [|x xs] E; try discriminate; auto.
  cbn [map] in E. apply cons_eq in E as [Ev E2].
  simpl. rewrite (view_has _ _ Ev). destruct (has_kids x); simpl; auto.
  rewrite (IH _ E2). f_equal. exact Ev.
Qed.

Lemma skip_enumerates {S T} (nxt : S -> result (S * option (node T))) s xs fuel :
  enumerates_nodes nxt s xs -> length xs < fuel ->
  enumerates_nodes (skip_next fuel nxt) s (filter has_kids xs).
Proof.
  intros (items & H & Ev) Hf. exists (filter (fun n => has_children n) items). split.
  - apply iter_find_enumerates; auto. rewrite <- (map_length view), Ev, map_length. auto.
  - apply filter_views; auto.
Qed.

(** One [next_node]/[find]: the answer and what is left. *)
Lemma iter_find_once {S A} (nxt : S -> result (S * option A)) p fuel : forall items s,
  enumerates nxt s items -> length items < fuel ->
  exists s' o, iter_find fuel nxt p s = Ok (s', o) /\
    match o with
    | None => filter p items = [] /\ enumerates nxt s' []
    | Some a => exists pre post, items = pre ++ a :: post /\ filter p pre = [] /\ p a = true /\
                 enumerates nxt s' post
    end.
Proof.
  revert fuel. intros fuel items. revert fuel. induction items as [|x items IH]; intros fuel s H Hf;
    destruct fuel as [|fuel]; try lia; simpl.
  - apply enumerates_nil in H as (s1 & -> & H). exists s1, None. auto.
  - apply enumerates_cons in H as (s1 & -> & H). destruct (p x) eqn:E.
    + exists s1, (Some x). split; auto. exists [], items. auto.
    + simpl in Hf. destruct (IH fuel s1 H ltac:(lia)) as (s' & o & -> & Ho). exists s', o. split; auto.
      destruct o as [a|]; auto. destruct Ho as (pre & post & -> & H1 & H2 & H3).
      exists (x :: pre), post. simpl. rewrite E. auto.
Qed.

Lemma next_node_thm {S T} (nxt : S -> result (S * option (node T))) s xs fuel :
  enumerates_nodes nxt s xs -> length xs < fuel ->
  exists s' o, skip_next fuel nxt s = Ok (s', o) /\
    match o with
    | None => filter has_kids xs = [] /\ enumerates_nodes nxt s' []
    | Some n => exists pre x post, xs = pre ++ x :: post /\ filter has_kids pre = [] /\
        has_kids x = true /\ view n = rview x /\ enumerates_nodes nxt s' post
    end.
Proof.
  intros (items & H & Ev) Hf.
  assert (Hl : length items = length xs) by (rewrite <- (map_length view), Ev, map_length; auto).
  destruct (iter_find_once nxt (fun n => has_children n) fuel items s H ltac:(lia)) as (s' & o & E & Ho).
  exists s', o. split; auto. destruct o as [n|].
  - destruct Ho as (pre & post & -> & H1 & H2 & H3). rewrite map_app in Ev. simpl in Ev.
    symmetry in Ev. apply map_eq_app in Ev as (xpre & xr & -> & E1 & E2).
    destruct xr as [|x xpost]; [discriminate|].
    change (rview x :: map rview xpost = view n :: map view post) in E2.
    apply cons_eq in E2 as [E2 E3]. symmetry in E2. rename E2 into Ev.
    exists xpre, x, xpost. split; [auto|]. split.
    { symmetry in E1. apply filter_views in E1. rewrite H1 in E1. simpl in E1.
      destruct (filter has_kids xpre); [auto|discriminate]. }
    split; [rewrite <- (view_has _ _ Ev); auto|]. split; auto. exists post. auto.
  - destruct Ho as [H1 H2]. split.
    + apply filter_views in Ev. rewrite H1 in Ev. destruct (filter has_kids xs); [auto|discriminate].
    + exists []. auto.
Qed.

Lemma filter_filter {A} (p q : A -> bool) l : filter (fun x => p x && q x) l = filter q (filter p l).
Proof. induction l as [|x l IH]; simpl; auto. destruct (p x); simpl; [destruct (q x); simpl; rewrite IH; auto|auto]. Qed.

Lemma filter_views_by {T} p q (items : list (node T)) xs : (forall n x, view n = rview x -> p n = q x) ->
  map view items = map rview xs -> map view (filter p items) = map rview (filter q xs).
Proof.
  intros Hpq. revert xs; induction items as [|n items IH]; intros [|x xs] E; try discriminate; auto.
  cbn [map] in E. apply cons_eq in E as [Ev E2].
  simpl. rewrite (Hpq _ _ Ev). destruct (q x); simpl; auto. rewrite (IH _ E2). f_equal. exact Ev.
Qed.

Lemma skip_find_thm {S T} (nxt : S -> result (S * option (node T))) s xs fuel p q :
  (forall n x, view n = rview x -> p n = q x) ->
  enumerates_nodes nxt s xs -> length xs < fuel ->
  exists s' o, skip_find fuel nxt p s = Ok (s', o) /\
    match o with
    | None => filter q (filter has_kids xs) = [] /\ enumerates_nodes nxt s' []
    | Some n => exists pre x post, xs = pre ++ x :: post /\ filter q (filter has_kids pre) = [] /\
        has_kids x = true /\ q x = true /\ view n = rview x /\ enumerates_nodes nxt s' post
    end.
Proof.
  intros Hpq (items & H & Ev) Hf.
  set (p' := fun n => has_children n && p n). set (q' := fun x : rose T => has_kids x && q x).
  assert (Hpq' : forall n x, view n = rview x -> p' n = q' x).
  { intros n x V. unfold p', q'. rewrite (view_has _ _ V), (Hpq _ _ V). auto. }
  assert (Hl : length items = length xs) by (rewrite <- (map_length view), Ev, map_length; auto).
  destruct (iter_find_once nxt p' fuel items s H ltac:(lia)) as (s' & o & E & Ho).
  exists s', o. split; [exact E|]. destruct o as [n|].
  - destruct Ho as (pre & post & -> & H1 & H2 & H3). rewrite map_app in Ev. simpl in Ev.
    symmetry in Ev. apply map_eq_app in Ev as (xpre & xr & -> & E1 & E2).
    destruct xr as [|x xpost]; [discriminate|].
    change (rview x :: map rview xpost = view n :: map view post) in E2.
    apply cons_eq in E2 as [E2 E3]. symmetry in E2. rename E2 into Ev.
    exists xpre, x, xpost. split; [auto|]. split.
    { symmetry in E1. apply (filter_views_by p' q' _ _ Hpq') in E1. rewrite H1 in E1. simpl in E1.
      rewrite <- filter_filter. fold q'. destruct (filter q' xpre); [auto|discriminate]. }
    rewrite (Hpq' _ _ Ev) in H2. unfold q' in H2. apply andb_true_iff in H2 as [H2 H4].
    split; [auto|]. split; [auto|]. split; auto. exists post. auto.
  - destruct Ho as [H1 H2]. split.
    + apply (filter_views_by p' q' _ _ Hpq') in Ev. rewrite H1 in Ev. rewrite <- filter_filter. fold q'. destruct (filter q' xs); [auto|discriminate].
    + exists []. auto.
Qed.

(** [SkipTokens] over children, both ends in any order. *)
Section SkipChildren.
Context {T : Type}.
Variable t : tree T.
Variable l : list (rose T).
Hypothesis Hrep : tree_rep t l.
Notation nodes := (t_nodes t).
Implicit Types s : list (rose T).

Lemma skip_front fuel : forall s c p s1 s2, holds l c p s1 s s2 -> length s < fuel ->
  exists c' o, skip_next fuel (total (children_next nodes)) c = Ok (c', o) /\
  exists s1',
  match filter has_kids s with
  | [] => o = None /\ holds l c' p s1' [] s2
  | x :: r => (exists n, o = Some n /\ shows nodes n x) /\
      exists s', holds l c' p s1' s' s2 /\ filter has_kids s' = r /\ length s' <= length s
  end.
Proof.
  induction fuel as [|fuel IH]; intros s c p s1 s2 H Hf; [lia|].
  destruct (holds_front t l Hrep _ _ _ _ _ H) as (c' & o & E & Ho).
  unfold skip_next. cbn [iter_find]. unfold total at 1. rewrite E. destruct s as [|x s].
  - destruct Ho as [-> Ho]. exists c', None. split; auto. exists s1. simpl. auto.
  - destruct Ho as [(n & -> & Hn) Ho]. pose proof (view_has _ _ (proj2 Hn)) as Eh.
    rewrite Eh. cbn [filter]. destruct (has_kids x).
    + exists c', (Some n). split; auto. exists (s1 ++ [x]). split; eauto. exists s. split; [auto|]. split; [auto|]. cbn [length]; lia.
    + simpl in Hf. destruct (IH s c' p _ _ Ho ltac:(lia)) as (c'' & o & E2 & s1' & Hm).
      exists c'', o. split; auto. exists s1'. destruct (filter has_kids s); auto.
      destruct Hm as (Hm1 & s' & Hm2 & Hm3 & Hm4). split; auto. exists s'. split; [auto|]. split; [auto|]. cbn [length]; lia.
Qed.

Lemma filter_snoc {A} (p : A -> bool) q x : filter p (q ++ [x]) = filter p q ++ (if p x then [x] else []).
Proof. rewrite filter_app. simpl. destruct (p x); auto. Qed.

Lemma skip_back fuel : forall s c p s1 s2, holds l c p s1 s s2 -> length s < fuel ->
  exists c' o, skip_next fuel (total (children_next_back nodes)) c = Ok (c', o) /\
  exists s2',
  match last_error (filter has_kids s) with
  | None => o = None /\ holds l c' p s1 [] s2'
  | Some x => (exists n, o = Some n /\ shows nodes n x) /\
      exists s', holds l c' p s1 s' s2' /\ filter has_kids s' = removelast (filter has_kids s) /\
      length s' <= length s
  end.
Proof.
  induction fuel as [|fuel IH]; intros s c p s1 s2 H Hf; [lia|].
  destruct (holds_back t l Hrep _ _ _ _ _ H) as (c' & o & E & Ho).
  unfold skip_next. cbn [iter_find]. unfold total at 1. rewrite E.
  destruct s as [|x s _] using rev_ind.
  - destruct Ho as [-> Ho]. exists c', None. split; auto. exists s2. simpl. auto.
  - rewrite last_error_snoc, removelast_last in Ho. rewrite filter_snoc.
    destruct Ho as [(n & -> & Hn) Ho]. pose proof (view_has _ _ (proj2 Hn)) as Eh.
    rewrite Eh. rewrite app_length in *. simpl in Hf. destruct (has_kids x).
    + exists c', (Some n). split; auto. exists ([x] ++ s2). rewrite last_error_snoc, removelast_last. split; eauto.
      exists s. split; [auto|]. split; [auto|]. lia.
    + rewrite app_nil_r. destruct (IH s c' p _ _ Ho ltac:(lia)) as (c'' & o & E2 & s1' & Hm).
      exists c'', o. split; auto. exists s1'. destruct (last_error (filter has_kids s)); auto.
      destruct Hm as (Hm1 & s' & Hm2 & Hm3 & Hm4). split; auto. exists s'. split; [auto|]. split; [auto|]. lia.
Qed.

Theorem skip_deque fuel sched : forall c p s1 s s2, holds l c p s1 s s2 -> length s < fuel ->
  exists items, drive (skip_next fuel (total (children_next nodes)))
                      (skip_next fuel (total (children_next_back nodes))) sched c = Ok items /\
    map (option_map view) items = map (option_map rview) (deque sched (filter has_kids s)).
Proof.
  induction sched as [|b sched IH]; intros c p s1 s s2 H Hf; simpl.
  - exists []. auto.
  - destruct b.
    + destruct (skip_front fuel _ _ _ _ _ H Hf) as (c' & o & E & s1' & Ho). rewrite E.
      destruct (filter has_kids s) as [|x r].
      * destruct Ho as [-> Ho]. destruct (IH _ _ _ _ _ Ho ltac:(simpl; lia)) as (it & -> & Hv).
        eexists. split; [reflexivity|]. simpl in *. congruence.
      * destruct Ho as [(n & -> & Hn) (s' & Ho & <- & Hl)].
        destruct (IH _ _ _ _ _ Ho ltac:(lia)) as (it & -> & Hv).
        eexists. split; [reflexivity|]. simpl. rewrite Hv, (proj2 Hn). auto.
    + destruct (skip_back fuel _ _ _ _ _ H Hf) as (c' & o & E & s2' & Ho). rewrite E.
      destruct (last_error (filter has_kids s)) as [x|].
      * destruct Ho as [(n & -> & Hn) (s' & Ho & <- & Hl)].
        destruct (IH _ _ _ _ _ Ho ltac:(lia)) as (it & -> & Hv).
        eexists. split; [reflexivity|]. simpl. rewrite Hv, (proj2 Hn). auto.
      * destruct Ho as [-> Ho]. destruct (IH _ _ _ _ _ Ho ltac:(simpl; lia)) as (it & -> & Hv).
        eexists. split; [reflexivity|]. simpl in *. congruence.
Qed.
End SkipChildren.
