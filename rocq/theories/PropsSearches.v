(** C26: [skip_tokens().find(..)] and [.rfind(..)] on children, mixed in any order. *)
From Coq Require Import Lia List.
Import ListNotations.
From Verif Require Import Base Pointer Index Tree Builder Hist Node Iter Query Spec SpecSearches Rep TreeRep Walk WalkThms Nav Skip Demo PropsTree.
Open Scope nat_scope.

(** The same requests to an iterator. *)
Fixpoint asked {S T} (find rfind : (node T -> bool) -> S -> result (S * option (node T))) (rs : list (bool * (node T -> bool))) (s : S) : result (list (option (node T))) :=
  match rs with
  | [] => Ok []
  | (front, p) :: rs =>
      match (if front : bool then find p s else rfind p s) with
      | Ok (s', o) => match asked find rfind rs s' with Ok os => Ok (o :: os) | Err e => Err e | Diverge => Diverge end
      | Err e => Err e
      | Diverge => Diverge
      end
  end.
(** Requests that ask the same of nodes and of document nodes. *)
Definition same_requests {T} (rs : list (bool * (node T -> bool))) (qs : list (bool * (rose T -> bool))) : Prop :=
  Forall2 (fun r q => fst r = fst q /\ forall n x, view n = rview x -> snd r n = snd q x) rs qs.

Section Find.
Context {T : Type}.
Variable t : tree T.
Variable l : list (rose T).
Hypothesis Hrep : tree_rep t l.
Notation nodes := (t_nodes t).
Variable P : node T -> bool.
Variable Q : rose T -> bool.
Hypothesis PQ : forall n x, view n = rview x -> P n = Q x.

Lemma find_front fuel : forall s c p s1 s2, holds l c p s1 s s2 -> length s < fuel ->
  exists c' o s1', iter_find fuel (total (children_next nodes)) P c = Ok (c', o) /\ length (snd (first_of Q s)) <= length s /\
  holds l c' p s1' (snd (first_of Q s)) s2 /\ option_map view o = option_map rview (fst (first_of Q s)).
Proof.
  induction fuel as [|fuel IH]; intros s c p s1 s2 H Hf; [lia|].
  destruct (holds_front t l Hrep _ _ _ _ _ H) as (c' & o & E & Ho).
  cbn [iter_find]. unfold total at 1. rewrite E. destruct s as [|x s].
  - destruct Ho as [-> Ho]. exists c', None, s1. auto.
  - destruct Ho as [(n & -> & Hn) Ho]. rewrite (PQ _ _ (proj2 Hn)). cbn [first_of]. destruct (Q x).
    + exists c', (Some n), (s1 ++ [x]). split; auto. cbn [length snd fst option_map]. split; [lia|]. split; auto. f_equal. exact (proj2 Hn).
    + simpl in Hf. destruct (IH s c' p _ _ Ho ltac:(lia)) as (c'' & o & s1' & E2 & L2 & H2 & V2). exists c'', o, s1'. split; auto. cbn [length]. split; [lia|]. auto.
Qed.
Lemma find_back fuel : forall s c p s1 s2, holds l c p s1 s s2 -> length s < fuel ->
  exists c' o s2', iter_find fuel (total (children_next_back nodes)) P c = Ok (c', o) /\ length (snd (final_of Q s)) <= length s /\
  holds l c' p s1 (snd (final_of Q s)) s2' /\ option_map view o = option_map rview (fst (final_of Q s)).
Proof.
  unfold final_of. induction fuel as [|fuel IH]; intros s c p s1 s2 H Hf; [lia|].
  destruct (holds_back t l Hrep _ _ _ _ _ H) as (c' & o & E & Ho).
  cbn [iter_find]. unfold total at 1. rewrite E. destruct s as [|x s _] using rev_ind.
  - destruct Ho as [-> Ho]. exists c', None, s2. auto.
  - rewrite last_error_snoc, removelast_last in Ho. destruct Ho as [(n & -> & Hn) Ho]. rewrite (PQ _ _ (proj2 Hn)). rewrite rev_app_distr. cbn [rev app first_of]. rewrite app_length in *. cbn [length] in *. destruct (Q x).
    + exists c', (Some n), ([x] ++ s2). split; auto. cbn [snd fst option_map]. rewrite rev_involutive. split; [lia|]. split; auto. f_equal. exact (proj2 Hn).
    + destruct (IH s c' p _ _ Ho ltac:(lia)) as (c'' & o & s2' & E2 & L2 & H2 & V2). exists c'', o, s2'. split; auto. split; [lia|]. auto.
Qed.
End Find.

Lemma asked_ok T (t : tree T) l : tree_rep t l -> forall fuel rs qs, same_requests rs qs -> forall c p s1 s s2, holds l c p s1 s s2 -> length s < fuel ->
  exists items, asked (skip_find fuel (total (children_next (t_nodes t)))) (skip_rfind fuel (total (children_next_back (t_nodes t)))) rs c = Ok items /\
    map (option_map view) items = map (option_map rview) (searches (map (fun q => (fst q, fun x => has_kids x && snd q x)) qs) s).
Proof.
  intros Hr fuel rs qs HR. induction HR as [|[b pr] [b' q] rs qs [Eb PQ] HR IH]; intros c p s1 s s2 H Hf; [exists []; auto|]. cbn [fst snd] in *. subst b'.
  assert (PQ' : forall n x, view n = rview x -> (has_children n && pr n)%bool = (has_kids x && q x)%bool) by (intros n x V; rewrite (view_has _ _ V), (PQ _ _ V); auto).
  cbn [asked map searches fst snd]. destruct b.
  - unfold skip_find at 1. destruct (find_front t l Hr _ _ PQ' fuel s c p s1 s2 H Hf) as (c' & o & s1' & E & L & H' & V). rewrite E.
    destruct (first_of _ s) as [a r]. cbn [fst snd] in *. destruct (IH _ _ _ _ _ H' ltac:(lia)) as (it & -> & Hv). eexists. split; [reflexivity|]. cbn [map]. rewrite Hv, V. auto.
  - unfold skip_rfind at 1. destruct (find_back t l Hr _ _ PQ' fuel s c p s1 s2 H Hf) as (c' & o & s2' & E & L & H' & V). rewrite E.
    destruct (final_of _ s) as [a r]. cbn [fst snd] in *. destruct (IH _ _ _ _ _ H' ltac:(lia)) as (it & -> & Hv). eexists. split; [reflexivity|]. cbn [map]. rewrite Hv, V. auto.
Qed.

Lemma filter_rev {A} (f : A -> bool) l : filter f (rev l) = rev (filter f l).
Proof. induction l as [|x l IH]; auto. cbn [rev filter]. rewrite filter_app, IH. cbn [filter]. destruct (f x); cbn [rev]; rewrite ?app_nil_r; auto. Qed.

Lemma first_filter T (q : rose T -> bool) s : fst (first_of (fun x => has_kids x && q x)%bool s) = fst (first_of q (filter has_kids s)) /\
  filter has_kids (snd (first_of (fun x => has_kids x && q x)%bool s)) = snd (first_of q (filter has_kids s)).
Proof. induction s as [|y s [IH1 IH2]]; auto. cbn [first_of filter]. destruct (has_kids y); cbn [andb first_of]; auto. destruct (q y); auto. Qed.
Lemma searches_filter T (qs : list (bool * (rose T -> bool))) : forall s, searches (map (fun q => (fst q, fun x : rose T => has_kids x && snd q x)%bool) qs) s = searches qs (filter has_kids s).
Proof.
  induction qs as [|[b q] qs IH]; intros s; auto. cbn [map searches fst snd]. destruct b.
  - destruct (first_filter T q s) as [A B]. destruct (first_of _ s) as [o r], (first_of q (filter has_kids s)) as [o' r']. cbn [fst snd] in *. subst. rewrite IH. auto.
  - unfold final_of. rewrite <- filter_rev. destruct (first_filter T q (rev s)) as [A B]. destruct (first_of _ (rev s)) as [o r], (first_of q (filter has_kids (rev s))) as [o' r']. cbn [fst snd] in *. subst.
    rewrite IH, filter_rev. auto.
Qed.

(** [node.children().skip_tokens()], asked by [find] and [rfind] with any predicates in any order, answers as the list of the children with children;
    every request uses up what it passes over, so nothing is given twice.  As C24, for settled lists. *)
Theorem C26_find_both_ends_partial : forall T F (ops : list (op T)) t l x n rs qs fuel,
  finished F ops t l -> In x (preorder_list l) -> tree_get t (r_id x) = Some n ->
  settled (Some x) (r_kids x) -> length (r_kids x) < fuel -> same_requests rs qs ->
  exists items,
    asked (skip_find fuel (total (children_next (t_nodes t)))) (skip_rfind fuel (total (children_next_back (t_nodes t)))) rs (node_children n) = Ok items /\
    map (option_map view) items = map (option_map rview) (searches qs (filter has_kids (r_kids x))).
Proof.
  intros T F ops t l x n rs qs fuel H Hx E Hst Hf HR. pose proof (WalkThms.fin_rep F ops t l H) as Hr.
  rewrite <- searches_filter. eapply (asked_ok T t l Hr); eauto. eapply (Nav.is_children_holds l).
  - apply TreeRep.kids_sibling_list; eauto.
  - apply (Nav.node_children_is t l Hr); auto.
  - apply (Nav.settled_fresh t l Hr); auto; first [left; reflexivity|apply TreeRep.kids_sibling_list; auto].
Qed.
Print Assumptions C26_find_both_ends_partial.

(** The same for the roots, [tree.children()]. *)
Theorem C26_roots_find_both_ends_partial : forall T F (ops : list (op T)) t l rs qs fuel,
  finished F ops t l -> settled None l -> length l < fuel -> same_requests rs qs ->
  exists items,
    asked (skip_find fuel (total (children_next (t_nodes t)))) (skip_rfind fuel (total (children_next_back (t_nodes t)))) rs (tree_children t) = Ok items /\
    map (option_map view) items = map (option_map rview) (searches qs (filter has_kids l)).
Proof.
  intros T F ops t l rs qs fuel H Hst Hf HR. pose proof (WalkThms.fin_rep F ops t l H) as Hr.
  rewrite <- searches_filter. eapply (asked_ok T t l Hr); eauto. eapply (Nav.is_children_holds l).
  - left; reflexivity.
  - apply (Nav.tree_children_is t l Hr); auto.
  - apply (Nav.settled_fresh t l Hr); auto; first [left; reflexivity|apply TreeRep.kids_sibling_list; auto].
Qed.
Print Assumptions C26_roots_find_both_ends_partial.

(** r{ a{t} t b{t} c{t} } (values 0; 1 2 3 5): [find(v > 0)], [rfind(v < 5)], [find(v > 0)]: a, b, and then none, since [rfind] has used up c. *)
Definition three_kids : list (op nat) :=
  [OOpen 0; OOpen 1; OToken 9 1%N; OClose; OToken 2 1%N; OOpen 3; OToken 9 1%N; OClose; OOpen 5; OToken 9 1%N; OClose; OClose].
Definition ask (b : bool) (k : nat) : bool * (node nat -> bool) := (b, fun n => if b then Nat.ltb k (node_value n) else Nat.ltb (node_value n) k).
Example C26_find_both_ends_inhabited :
  let t := b_tree (w_builder (run_world flavor_default three_kids)) in
  match tree_get t 0 with
  | Some n => match asked (skip_find 20 (total (children_next (t_nodes t)))) (skip_rfind 20 (total (children_next_back (t_nodes t)))) [ask true 0; ask false 5; ask true 0] (node_children n) with
              | Ok items => map (option_map (@node_value nat)) items = [Some 1; Some 3; None]
              | _ => False
              end
  | None => False
  end /\
  (forall b k, same_requests [ask b k] [(b, fun x => if b then Nat.ltb k (r_data x) else Nat.ltb (r_data x) k)]).
Proof.
  split; [vm_compute; reflexivity|]. intros b k. constructor; [|constructor]. split; auto. unfold view, rview. intros n x E. cbn [ask snd]. assert (node_value n = r_data x) as -> by congruence. auto.
Qed.
