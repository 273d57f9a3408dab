(** C79: [replace] while iterators are under way. *)
From Coq Require Import Lia List Arith ZArith.
Import ListNotations.
From Verif Require Import Base Pointer Index Tree Builder Hist Node Iter Live SpecLive Spec Rep Demo.
Open Scope nat_scope.

Definition same_links {T} (l l' : links T) : Prop := l' = set_l_data (l_data l') l.
Definition alike {T} : list (links T) -> list (links T) -> Prop := Forall2 same_links.
Lemma alike_refl T (ns : list (links T)) : alike ns ns.
Proof. induction ns as [|[]]; constructor; auto; reflexivity. Qed.
Lemma alike_put T (ns ms : list (links T)) i v : alike ns ms -> alike ns (put ms i v).
Proof.
  intros H. unfold put, node_at. destruct (nth_error ms i) as [l0|]; auto. cbn [node_replace fst]. clear l0. revert i.
  induction H as [|a b ns ms Hab H IH]; intros [|i]; cbn.
  - constructor.
  - constructor.
  - constructor; auto. unfold same_links in *. rewrite Hab. destruct a; reflexivity.
  - constructor; auto. apply IH.
Qed.
Lemma alike_nth T (ns ms : list (links T)) i : alike ns ms ->
  match nth_error ns i, nth_error ms i with Some l, Some l' => same_links l l' | None, None => True | _, _ => False end.
Proof. intros H. revert i. induction H as [|a b ns ms Hab H IH]; intros [|i]; cbn; auto. apply IH. Qed.
Lemma alike_length T (ns ms : list (links T)) : alike ns ms -> length ns = length ms.
Proof. induction 1; cbn; auto. Qed.
Lemma value_put T (ns : list (links T)) i v j : value_now (put ns i v) j = if Nat.eqb j i then match value_now ns i with Some _ => Some v | None => None end else value_now ns j.
Proof.
  unfold value_now, put, node_at. destruct (nth_error ns i) as [l|] eqn:E.
  - cbn [node_replace fst option_map]. revert i j E. induction ns as [|a ns IH]; intros [|i] [|j] E; cbn in *; try discriminate; auto.
    specialize (IH i j E). unfold node_value in *. destruct (nth_error (upd ns i (set_l_data v)) j), (nth_error ns j); cbn in *; destruct (Nat.eqb j i); auto.
  - destruct (Nat.eqb_spec j i) as [->|]; auto. rewrite E. auto.
Qed.

(** Equal answers up to what is in the cells. *)
Definition agree {T X S} (r r' : result (S * option (X * node T))) : Prop :=
  match r, r' with
  | Ok (s, o), Ok (s', o') => s = s' /\ option_map (fun a => (fst a, fst (snd a))) o = option_map (fun a => (fst a, fst (snd a))) o'
  | Err e, Err e' => e = e'
  | Diverge, Diverge => True
  | _, _ => False
  end.
Definition blind {T X S} (nxt : bool -> list (links T) -> S -> result (S * option (X * node T))) : Prop :=
  forall ns ms b s, alike ns ms -> agree (nxt b ns s) (nxt b ms s).

Lemma told_ext T X (acts : list (act T)) : forall vals vals' (items : list (option (X * nat))), (forall i, vals i = vals' i) -> told vals acts items = told vals' acts items.
Proof.
  induction acts as [|[b|i v] acts IH]; intros vals vals' items H; cbn [told]; auto.
  - destruct items as [|o items]; auto. rewrite (IH _ _ items H). f_equal. f_equal. destruct o as [[x i]|]; cbn; rewrite ?H; auto.
  - rewrite H. f_equal. apply IH. intros j. rewrite !H. auto.
Qed.
Lemma blind_undisturbed T X S (nxt : bool -> list (links T) -> S -> result (S * option (X * node T))) : blind nxt -> undisturbed nxt.
Proof.
  intros HB nodes acts s.
  enough (G : forall acts ms s, alike nodes ms -> live nxt ms acts s =
    match quiet nxt nodes acts s with Ok items => Ok (told (value_now ms) acts items) | Err e => Err e | Diverge => Diverge end) by (apply G, alike_refl).
  clear acts s. induction acts as [|[b|i v] acts IH]; intros ms s HA; cbn [quiet live told]; auto.
  - pose proof (HB nodes ms b s HA) as G. unfold agree in G. destruct (nxt b nodes s) as [[s1 o]| |], (nxt b ms s) as [[s2 o']| |]; try (destruct G; fail); try congruence.
    destruct G as [<- G]. rewrite (IH ms s1 HA). destruct (quiet nxt nodes acts s1) as [l| |]; auto. cbn [told]. rewrite G. destruct o' as [[x n]|]; auto.
  - rewrite (IH (put ms i v) s (alike_put _ _ _ i v HA)). destruct (quiet nxt nodes acts s) as [l| |]; auto. cbn [told].
    replace (put_back ms i v) with (value_now ms i) by (unfold put_back, value_now; destruct (node_at ms i); reflexivity). do 2 f_equal. apply told_ext. intros j. apply value_put.
Qed.

Lemma events_blind T F : blind (@live_events T F).
Proof.
  intros ns ms b s HA. unfold live_events, walk_events_next. destruct (wk_node s) as [[i e]|]; [|cbn; auto]. pose proof (alike_nth _ ns ms i HA) as G.
  destruct (nth_error ns i) as [l|], (nth_error ms i) as [l'|]; try (destruct G; fail); [|cbn; auto]. rewrite G.
  replace (walk_step F (set_l_data (l_data l') l) e (wk_depth s)) with (walk_step F l e (wk_depth s)) by (destruct l; reflexivity). destruct (walk_step F l e (wk_depth s)); cbn; auto.
Qed.
Lemma events_step T F (ns ms : list (links T)) s : alike ns ms ->
  match walk_events_next F ns s, walk_events_next F ms s with
  | (s1, Some (e, n)), (s2, Some (e', n')) => s1 = s2 /\ e = e' /\ fst n = fst n'
  | (s1, None), (s2, None) => s1 = s2
  | _, _ => False
  end.
Proof.
  intros HA. pose proof (events_blind T F ns ms true s HA) as G. unfold live_events, agree in G.
  destruct (walk_events_next F ns s) as [s1 [[e n]|]], (walk_events_next F ms s) as [s2 [[e' n']|]]; cbn in G; destruct G as [G1 G2]; auto; try discriminate.
  injection G2 as -> ->. auto.
Qed.
Lemma walk_blind T F : blind (@live_walk T F).
Proof.
  intros ns ms b s HA. unfold live_walk, walk_next. replace (loop_fuel ms) with (loop_fuel ns) by (unfold loop_fuel; rewrite (alike_length _ _ _ HA); auto).
  generalize (loop_fuel ns). intros fuel. revert s. induction fuel as [|fuel IH]; intros s; [cbn; auto|]. cbn [walk_loop]. pose proof (events_step T F ns ms s HA) as G.
  destruct (walk_events_next F ns s) as [s1 [[e n]|]], (walk_events_next F ms s) as [s2 [[e' n']|]]; try (destruct G; fail); [|subst; cbn; auto].
  destruct G as (-> & -> & G). destruct e'; cbn; rewrite ?G; auto; apply IH.
Qed.
Lemma depths_blind T F : blind (@live_depths T F).
Proof.
  intros ns ms b s HA. unfold live_depths, walk_depths_next. replace (loop_fuel ms) with (loop_fuel ns) by (unfold loop_fuel; rewrite (alike_length _ _ _ HA); auto).
  generalize (loop_fuel ns). intros fuel. revert s. induction fuel as [|fuel IH]; intros s; [cbn; auto|]. cbn [walk_depths_loop]. pose proof (events_step T F ns ms s HA) as G.
  destruct (walk_events_next F ns s) as [s1 [[e n]|]], (walk_events_next F ms s) as [s2 [[e' n']|]]; try (destruct G; fail); [|subst; cbn; auto].
  destruct G as (-> & -> & G). destruct e'; cbn; rewrite ?G; auto; apply IH.
Qed.
Lemma inside_blind T F : blind (@live_inside T F).
Proof.
  intros ns ms b s HA. unfold live_inside, inside_next. replace (loop_fuel ms) with (loop_fuel ns) by (unfold loop_fuel; rewrite (alike_length _ _ _ HA); auto).
  generalize (loop_fuel ns). intros fuel. revert s. induction fuel as [|fuel IH]; intros s; [cbn; auto|]. cbn [inside_loop]. pose proof (events_step T F ns ms s HA) as G.
  destruct (walk_events_next F ns s) as [s1 [[e n]|]], (walk_events_next F ms s) as [s2 [[e' n']|]]; try (destruct G; fail); [|subst; cbn; auto].
  destruct G as (-> & -> & G). destruct e'; cbn; rewrite ?G; auto; apply IH.
Qed.
Lemma children_blind T : blind (@live_children T).
Proof.
  intros ns ms b [f l] HA. unfold live_children, children_next, children_next_back. cbn [ch_first ch_last].
  destruct b; [destruct f as [i|]|destruct l as [i|]]; try (cbn; auto; fail); pose proof (alike_nth _ ns ms i HA) as G;
  destruct (nth_error ns i) as [k|], (nth_error ms i) as [k'|]; try (destruct G; fail); try (cbn; auto; fail); rewrite G.
  - destruct l as [j|]; [|cbn; auto]. destruct (Nat.eqb i j), k; cbn; auto.
  - destruct f as [j|]; [|cbn; auto]. destruct (Nat.eqb i j), k; cbn; auto.
Qed.
Lemma opt_alike T (ns ms : list (links T)) o : alike ns ms -> option_map fst (node_opt ns o) = option_map fst (node_opt ms o).
Proof. intros HA. destruct o as [i|]; auto. cbn. unfold node_at. pose proof (alike_nth _ ns ms i HA) as G. destruct (nth_error ns i), (nth_error ms i); auto; destruct G. Qed.
Lemma siblings_blind T : blind (@live_siblings T).
Proof.
  intros ns ms b [i|] HA; [|cbn; auto]. unfold live_siblings. cbn [node_opt]. unfold node_at. pose proof (alike_nth _ ns ms i HA) as G.
  destruct (nth_error ns i) as [l|], (nth_error ms i) as [l'|]; try (destruct G; fail); [|cbn; auto]. cbn [siblings_next snd]. rewrite G.
  cbn. split; auto. destruct l; cbn. apply opt_alike; auto.
Qed.
Lemma ancestors_blind T : blind (@live_ancestors T).
Proof.
  intros ns ms b [i|] HA; [|cbn; auto]. unfold live_ancestors. cbn [node_opt]. unfold node_at. pose proof (alike_nth _ ns ms i HA) as G.
  destruct (nth_error ns i) as [l|], (nth_error ms i) as [l'|]; try (destruct G; fail); [|cbn; auto]. cbn [ancestors_next snd]. unfold node_parent. rewrite G.
  cbn. split; auto. destruct l; cbn. apply opt_alike; auto.
Qed.

(** Whatever values are replaced between the calls, also of the node the iterator stands on or will come to, every iterator gives the nodes it would have given,
    each with the value it has by then, and [replace] returns the value the node had. *)
Theorem C79_walk : forall T F, undisturbed (@live_walk T F) /\ undisturbed (@live_depths T F) /\ undisturbed (@live_events T F) /\ undisturbed (@live_inside T F).
Proof. intros T F. split; [|split; [|split]]; apply blind_undisturbed; [apply walk_blind|apply depths_blind|apply events_blind|apply inside_blind]. Qed.
Print Assumptions C79_walk.
Theorem C79_links : forall T, undisturbed (@live_children T) /\ undisturbed (@live_siblings T) /\ undisturbed (@live_ancestors T).
Proof. intros T. split; [|split]; apply blind_undisturbed; [apply children_blind|apply siblings_blind|apply ancestors_blind]. Qed.
Print Assumptions C79_links.


(** A value put ahead of the walk is seen, one put behind it is not, and the order is that of the tree. *)
Example C79_inhabited : exists doc, finished flavor_default demo_ops demo_tree doc /\
  live (live_walk flavor_default) (t_nodes demo_tree) [Go true; Put 0 70; Put 1 99; Go true; Put 1 5; Put 4 6; Put 4 7; Go true; Go true; Go true; Put 99 1; Go true; Go true; Go true] (tree_walk demo_tree) =
  Ok [Saw (Some (tt, 0, Some 10)); Was (Some 10); Was (Some 1); Saw (Some (tt, 1, Some 99)); Was (Some 99); Was (Some 11); Was (Some 6); Saw (Some (tt, 4, Some 7));
      Saw (Some (tt, 2, Some 2)); Saw (Some (tt, 3, Some 12)); Was None; Saw (Some (tt, 5, Some 3)); Saw (Some (tt, 6, Some 4)); Saw None].
Proof. exists demo_doc. split; [apply demo_finished|vm_compute; reflexivity]. Qed.
Example C79_inhabited_both_ends :
  live live_children (t_nodes demo_tree) [Put 5 50; Go false; Put 4 40; Go true; Go true; Go false] (ChildrenIt (Some 1) (Some 5)) =
  Ok [Was (Some 3); Saw (Some (tt, 5, Some 50)); Was (Some 11); Saw (Some (tt, 1, Some 1)); Saw (Some (tt, 4, Some 40)); Saw None].
Proof. vm_compute. reflexivity. Qed.
