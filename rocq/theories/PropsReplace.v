(** Property theorems: replacing values (C29); the builder does not depend on the values (C43). *)
From Coq Require Import Lia.
From Verif Require Import Base Pointer Index Tree Builder Hist Node Iter Query Spec SpecMap Rep Refine TreeRep
  Opaque WalkThms Demo AllHist StepFacts PropsSafe Relabel.

(** ** C43 *)

(** Whatever the storage, calls that differ only in the values passed have the same results. *)
Theorem C43_same_results : forall T U F (ops : list (op T)) (qs : list (op U)),
  Forall2 same_call ops qs -> run_outs F ops = run_outs F qs.
Proof. intros T U F ops qs H. exact (proj2 (run_rel F ops qs H _ _ wrel_new)). Qed.
Print Assumptions C43_same_results.

(** The trees (finished or not) agree node by node in everything but the values; the cursor too. *)
Theorem C43_same_links : forall T U F (ops : list (op T)) (qs : list (op U)),
  Forall2 same_call ops qs ->
  let t := tree_so_far F ops in
  let u := tree_so_far F qs in
  tree_len t = tree_len u /\ t_span t = t_span u /\ t_indexes t = t_indexes u /\
  t_first t = t_first u /\ t_last t = t_last u /\
  cursor (w_builder (run_world F ops)) = cursor (w_builder (run_world F qs)) /\
  (forall i n, tree_get t i = Some n -> exists m, tree_get u i = Some m /\ same_but_value n m).
Proof.
  intros T U F ops qs H t u. destruct (run_rel F ops qs H _ _ wrel_new) as [(Hh & Hb & He) _].
  destruct Hb as (Ht & Hc & Hp & Hs & Hcur). destruct Ht as (A & B & C & D & E).
  split; [exact (nrel_len _ _ A)|]. repeat (split; [assumption|]).
  intros i n Hn. unfold tree_get, node_at in *. fold t in A. fold u in A.
  change (nrel (t_nodes t) (t_nodes u)) in A.
  destruct (nrel_nth _ _ i A) as [[E1 E2]|(l & m & E1 & E2 & L)]; rewrite E1 in Hn; [discriminate|].
  injection Hn as <-. rewrite E2. exists (i, m). split; auto. destruct L as (L1 & L2 & L3 & L4 & L5 & L6).
  unfold same_but_value, has_children, node_span; simpl. rewrite L5. auto 10.
Qed.
Print Assumptions C43_same_links.

Lemma nth_mapi {A B} (f : nat -> A -> B) l : forall n i, nth_error (mapi f n l) i = option_map (f (n + i)) (nth_error l i).
Proof.
  induction l as [|x l IH]; intros n [|i]; simpl; auto.
  - rewrite Nat.add_0_r. auto.
  - rewrite IH. replace (S n + i) with (n + S i) by lia. auto.
Qed.
Lemma mapi_len {A B} (f : nat -> A -> B) l : forall n, length (mapi f n l) = length l.
Proof. induction l; intros n; simpl; auto. Qed.
Lemma mapi_const {A B} (f : A -> B) l : forall n, mapi (fun _ => f) n l = map f l.
Proof. induction l as [|x l IH]; intros n; simpl; auto. f_equal. auto. Qed.

(** Changing the values of a finished document, as a function of node and value, is again a finished
    run, of a history that differs only in the values. *)
Lemma relabel_finished T U F (g : nat -> T -> U) ops t l : finished F ops t l ->
  exists qs, Forall2 same_call ops qs /\ finished F qs (tree_map g t) (map (relabel g) l).
Proof.
  intros (HF & (a & rs & Hd & Ho & <-) & Hb & Hfit).
  exists (op_relabel g 0 ops rs).
  destruct (refines F HF ops a rs Hd) as (w & Er & _).
  assert (Eo : run_outs F ops = rs) by (unfold run_outs; rewrite Er; auto).
  assert (El : length rs = length ops) by (rewrite <- Eo; apply run_length).
  assert (Hs := rl_same g ops 0 rs El). split; auto. split; auto. split; [|split].
  - exists (doc_map g a), rs. split; [|split]; auto.
    + exact (rl_run F g ops doc_new a rs Hd).
    + simpl. rewrite Ho. auto.
  - destruct (tree_relabel F g HF ops (op_relabel g 0 ops rs) Hs) as (_ & Et & Ep).
    { rewrite Eo. apply rl_inserted. rewrite <- Eo. apply valued_run. }
    unfold builds, build in *. unfold tree_so_far in Et. rewrite Ep, Et.
    destruct (b_parent (w_builder (run_world F ops))); [discriminate|]. injection Hb as <-. auto.
  - unfold fits in *. simpl. unfold table_map. rewrite mapi_len. auto.
Qed.

(** In particular with one function on all values. *)
Theorem C43_map : forall T U F (f : T -> U) (ops : list (op T)) t l, finished F ops t l ->
  exists u, finished F (map (op_map f) ops) u (map (relabel (fun _ => f)) l).
Proof.
  intros T U F f ops t l (HF & (a & rs & Hd & Ho & <-) & Hb & Hfit).
  destruct (refines F HF ops a rs Hd) as (w & Er & _).
  assert (Eo : run_outs F ops = rs) by (unfold run_outs; rewrite Er; auto).
  assert (El : length rs = length ops) by (rewrite <- Eo; apply run_length).
  assert (Eq : forall n (o : list (op T)) r, length r = length o -> op_relabel (fun _ => f) n o r = map (op_map f) o).
  { clear. intros n o. revert n. induction o as [|o os IH]; intros n [|r rs] E; try discriminate; auto.
    injection E as E. destruct r; simpl; rewrite IH; auto. }
  destruct (relabel_finished T U F (fun _ => f) ops t (a_cur a)) as (qs & _ & _).
  { split; auto. split; [exists a, rs; auto|]. split; auto. }
  exists (tree_map (fun _ => f) t).
  assert (Hs := rl_same (fun _ => f) ops 0 rs El). split; auto. split; [|split].
  - exists (doc_map (fun _ => f) a), rs. split; [|split]; auto.
    + rewrite <- (Eq 0 ops rs El). exact (rl_run F (fun _ => f) ops doc_new a rs Hd).
    + simpl. rewrite Ho. auto.
  - rewrite <- (Eq 0 ops rs El). destruct (tree_relabel F (fun _ => f) HF ops _ Hs) as (_ & Et & Ep).
    { rewrite Eo. apply rl_inserted. rewrite <- Eo. apply valued_run. }
    unfold builds, build in *. unfold tree_so_far in Et. rewrite Ep, Et.
    destruct (b_parent (w_builder (run_world F ops))); [discriminate|]. injection Hb as <-. auto.
  - unfold fits in *. simpl. unfold table_map. rewrite mapi_len. auto.
Qed.
Print Assumptions C43_map.

(** ** C29 *)

Lemma nth_upd_same {A} (l : list A) i f : nth_error (upd l i f) i = option_map f (nth_error l i).
Proof. revert i; induction l as [|x l IH]; intros [|i]; simpl; auto. Qed.
Lemma nth_upd_other {A} (l : list A) i j f : i <> j -> nth_error (upd l i f) j = nth_error l j.
Proof. revert i j; induction l as [|x l IH]; intros [|i] [|j] H; simpl; auto; try congruence. Qed.

(** Any tree, any node of it: the old value is returned; the node has the new value and is otherwise
    the same; the other nodes and the tree's own fields are the same. *)
Theorem C29_replace : forall T (t : tree T) i n v t' old,
  tree_get t i = Some n -> tree_replace t n v = (t', old) ->
  old = node_value n /\
  (exists n', tree_get t' i = Some n' /\ node_value n' = v /\ same_but_value n n') /\
  (forall j, j <> i -> tree_get t' j = tree_get t j) /\
  tree_len t' = tree_len t /\ t_span t' = t_span t /\ t_indexes t' = t_indexes t /\
  t_first t' = t_first t /\ t_last t' = t_last t.
Proof.
  intros T t i n v t' old Hn E. unfold tree_replace, node_replace in E. injection E as <- <-.
  assert (Ei : fst n = i).
  { unfold tree_get, node_at in Hn. destruct (nth_error (t_nodes t) i); [|discriminate]. injection Hn as <-. auto. }
  rewrite Ei. split; auto. split; [|split].
  - unfold tree_get, node_at in *. simpl. rewrite nth_upd_same. destruct (nth_error (t_nodes t) i) as [l|]; [|discriminate].
    injection Hn as <-. exists (i, set_l_data v l). simpl. split; auto. split; auto. unfold same_but_value; simpl; auto 10.
  - intros j Hj. unfold tree_get, node_at. simpl. rewrite nth_upd_other; auto.
  - simpl. split; auto. unfold tree_len. simpl. clear. revert i. induction (t_nodes t) as [|x l IH]; intros [|i]; simpl; auto.
Qed.
Print Assumptions C29_replace.

Lemma relabel_id {T} (g : nat -> T -> T) (x : rose T) : (forall i d, g i d = d) -> relabel g x = x.
Proof.
  intros H. induction x as [i k d sp kids IH] using rose_ind'. simpl. rewrite H. f_equal.
  induction IH as [|y kids Hy _ IHk]; simpl; f_equal; auto.
Qed.

Lemma table_set T i (v : T) : forall ns k, mapi (fun j l0 => links_map (if Nat.eqb j (k + i) then v else l_data l0) l0) k ns = upd ns i (set_l_data v).
Proof.
  intros ns. revert i. induction ns as [|x ns IH]; intros [|i] k; simpl; auto.
  - rewrite Nat.add_0_r, Nat.eqb_refl. f_equal.
    assert (Hm : forall m j, k < j -> mapi (fun j l0 => links_map (if Nat.eqb j k then v else l_data l0) l0) j m = m).
    { clear. induction m as [|y m IHm]; intros j Hj; simpl; auto. destruct (Nat.eqb_spec j k); [lia|]. rewrite IHm by lia. destruct y; auto. }
    apply Hm. lia.
  - destruct (Nat.eqb_spec k (k + S i)); [lia|]. f_equal; [destruct x; auto|].
    rewrite <- (IH i (S k)). replace (k + S i) with (S k + i) by lia. auto.
Qed.
(** A finished tree after [replace] is the tree of a history that passed the new value in the
    first place: so every theorem about finished trees holds of it, with the one value changed in
    the document. *)
Theorem C29_as_if_built : forall T F (ops : list (op T)) t l i n v t' old, finished F ops t l ->
  tree_get t i = Some n -> tree_replace t n v = (t', old) ->
  exists ops', Forall2 same_call ops ops' /\ finished F ops' t' (map (set_value i v) l).
Proof.
  intros T F ops t l i n v t' old H Hn E.
  destruct (relabel_finished T T F (fun j d => if Nat.eqb j i then v else d) ops t l H) as (qs & Hs & Hq).
  exists qs. split; auto. unfold tree_replace, node_replace in E. injection E as <- _.
  assert (Ei : fst n = i).
  { unfold tree_get, node_at in Hn. destruct (nth_error (t_nodes t) i); [|discriminate]. injection Hn as <-. auto. }
  replace (set_t_nodes (upd (t_nodes t) (fst n) (set_l_data v)) t) with (tree_map (fun j d => if Nat.eqb j i then v else d) t); auto.
  rewrite Ei. unfold tree_map, set_t_nodes. f_equal. unfold table_map.
  exact (table_set T i v (t_nodes t) 0).
Qed.
Print Assumptions C29_as_if_built.

(** Range queries find the same nodes. *)
Theorem C29_queries : forall T F bs (t : tree T) i n v t' old s e,
  tree_get t i = Some n -> tree_replace t n v = (t', old) ->
  match node_with_range F bs t s e with
  | Ok None => node_with_range F bs t' s e = Ok None
  | Ok (Some m) => exists m', node_with_range F bs t' s e = Ok (Some m') /\ same_but_value m m'
  | Err x => node_with_range F bs t' s e = Err x
  | Diverge => node_with_range F bs t' s e = Diverge
  end.
Proof.
  intros T F bs t i n v t' old s e Hn E. destruct (C29_replace T t i n v t' old Hn E) as (_ & (n' & Hn' & _ & Hsame) & Ho & Hl & _ & Hix & _).
  assert (Hget : forall j, (tree_get t j = None /\ tree_get t' j = None) \/
     exists m m', tree_get t j = Some m /\ tree_get t' j = Some m' /\ same_but_value m m').
  { intros j. destruct (Nat.eq_dec j i) as [->|Hj]; [right; eauto|]. rewrite Ho by auto. destruct (tree_get t j) as [m|]; auto.
    right. exists m, m. unfold same_but_value; auto 10. }
  assert (Hclimb : forall fuel end_ m m', same_but_value m m' ->
    match climb fuel (t_nodes t) end_ m with
    | Ok r => exists r', climb fuel (t_nodes t') end_ m' = Ok r' /\ same_but_value r r'
    | Err x => climb fuel (t_nodes t') end_ m' = Err x
    | Diverge => climb fuel (t_nodes t') end_ m' = Diverge
    end).
  { induction fuel as [|fuel IH]; intros end_ m m' Hm; simpl; auto.
    pose proof Hm as (A & B & C & P & Q). unfold node_parent, node_opt. rewrite <- P.
    destruct (l_parent (snd m)) as [p|]; [|eauto].
    destruct (Hget p) as [[E1 E2]|(q & q' & E1 & E2 & Hq)]; unfold tree_get in E1, E2; rewrite E1, E2; eauto.
    pose proof Hq as (_ & Bq & _). rewrite <- Bq. destruct (N.leb end_ _); eauto. apply IH; auto. }
  unfold node_with_range. destruct (ix_from_usize F s), (ix_from_usize F e); auto.
  unfold node_with_span_internal. rewrite Hix. destruct (nth_error (t_indexes t) _) as [[ix id]|]; auto.
  destruct (Hget id) as [[E1 E2]|(q & q' & E1 & E2 & Hq)]; rewrite E1, E2; auto. rewrite Hl.
  specialize (Hclimb (S (tree_len t)) n1 q q' Hq). destruct (climb _ (t_nodes t) n1 q) as [r|x|]; auto.
  - destruct Hclimb as (r' & -> & Hr). eauto.
  - rewrite Hclimb. auto.
  - rewrite Hclimb. auto.
Qed.
Print Assumptions C29_queries.

Example C29_inhabited : exists n t', tree_get demo_tree 4 = Some n /\ tree_replace demo_tree n 77 = (t', 11) /\
  match node_with_range flavor_default std_search t' 3 5 with Ok (Some m) => node_value m = 77 | _ => False end.
Proof. do 2 eexists. split; [vm_compute; reflexivity|]. split; vm_compute; reflexivity. Qed.
