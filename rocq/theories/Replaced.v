(** Trees after [replace]: the link table represents the document with the one value changed. *)
From Coq Require Import Lia Permutation.
From Verif Require Import Base Pointer Index Tree Builder Hist Node Iter Edit Spec SpecMap SpecEdit Rep Marks Refine TreeRep Modify.

Section Replaced.
Context {T : Type}.
Variables (i : nat) (v : T).
Notation sv := (@set_value T i v).

Lemma sv_id x : r_id (sv x) = r_id x. Proof. destruct x; auto. Qed.
Lemma sv_kids x : r_kids (sv x) = map sv (r_kids x). Proof. destruct x; auto. Qed.
Lemma sv_span x : r_span (sv x) = r_span x. Proof. destruct x; auto. Qed.
Lemma sv_kind x : r_kind (sv x) = r_kind x. Proof. destruct x; auto. Qed.
Lemma sv_preorder x : preorder (sv x) = map sv (preorder x).
Proof.
  induction x as [j k d sp kids IH] using rose_ind'. simpl. f_equal.
  induction IH as [|y kids Hy _ IHk]; simpl; auto. rewrite map_app. f_equal; auto.
Qed.
Lemma sv_preorder_list l : preorder_list (map sv l) = map sv (preorder_list l).
Proof. unfold preorder_list. induction l as [|x l IH]; simpl; auto. rewrite map_app, sv_preorder. f_equal; auto. Qed.
Lemma sv_hd_id l n : hd_id (map sv l) n = hd_id l n.
Proof. destruct l as [|x l]; simpl; auto. rewrite sv_id. auto. Qed.
Lemma sv_last_of f l n : (forall x, In x l -> f (sv x) = f x) -> last_of f (map sv l) n = last_of f l n.
Proof. revert n. induction l as [|x l IH]; intros n H; simpl; auto. rewrite H by (simpl; auto). apply IH. intros y Hy. apply H; simpl; auto. Qed.
Lemma sv_rlp x : rlp (sv x) = rlp x.
Proof.
  induction x as [j k d sp kids IH] using rose_ind'. cbn [set_value relabel rlp]. fold (@set_value T i v).
  destruct k; auto.
  induction IH as [|y kids Hy _ IHk]; auto. destruct kids as [|z kids]; auto.
Qed.
Lemma sv_lp x : lp (sv x) = lp x.
Proof.
  induction x as [j k d sp kids IH] using rose_ind'. cbn [set_value relabel lp]. fold (@set_value T i v).
  destruct k; auto. destruct kids as [|a [|b kids]]; auto.
  - cbn [map]. apply Forall_inv in IH. rewrite IH, sv_id. auto.
  - cbn [map]. apply Forall_inv_tail in IH. revert IH. generalize b. clear.
    induction kids as [|z kids IHk]; intros b IH; cbn [map].
    + apply (Forall_inv IH).
    + apply IHk. apply (Forall_inv_tail IH).
Qed.

Definition set_links (e : nat * links T) : nat * links T :=
  if Nat.eqb (fst e) i then (fst e, set_l_data v (snd e)) else e.

Lemma sv_flat x : forall par prev nxt, flat par prev nxt (sv x) = map set_links (flat par prev nxt x).
Proof.
  induction x as [j k d sp kids IH] using rose_ind'. intros par prev nxt.
  cbn [set_value relabel]. fold (@set_value T i v). rewrite !flat_eq. cbn [map]. f_equal.
  - unfold set_links. cbn [fst snd]. rewrite sv_hd_id.
    assert (El : last_field k (map sv kids) = last_field k kids).
    { unfold last_field. destruct k; try (apply sv_last_of; intros; apply sv_lp); try (apply sv_last_of; intros; apply sv_rlp); try (apply sv_last_of; intros; apply sv_id); auto. }
    rewrite El. destruct (Nat.eqb j i); auto.
  - generalize (@None nat) at 1 3. induction IH as [|y kids Hy _ IHk]; intros pv; cbn [map flat_list]; auto.
    rewrite map_app, sv_hd_id, sv_id, Hy. f_equal. apply IHk.
Qed.
Lemma sv_flat_list l : forall par prev nxt, flat_list par prev (map sv l) nxt = map set_links (flat_list par prev l nxt).
Proof.
  induction l as [|x l IH]; intros par prev nxt; cbn [map flat_list]; auto.
  rewrite map_app, sv_hd_id, sv_id, sv_flat. f_equal. apply IH.
Qed.

Lemma replaced_rep (t : tree T) l n t' old : tree_rep t l -> tree_get t i = Some n -> tree_replace t n v = (t', old) ->
  tree_rep t' (map sv l) /\ length (t_nodes t') = length (t_nodes t) /\ t_indexes t' = t_indexes t /\ t_span t' = t_span t.
Proof.
  intros [R P Hf Hl] Hn E. unfold tree_replace, node_replace in E. injection E as <- _.
  assert (Ei : fst n = i).
  { unfold tree_get, node_at in Hn. destruct (nth_error (t_nodes t) i); [|discriminate]. injection Hn as <-. auto. }
  rewrite Ei. cbn [t_nodes t_indexes t_span set_t_nodes]. split; [|rewrite length_upd; auto]. constructor; cbn [t_nodes t_first t_last set_t_nodes].
  - rewrite sv_flat_list. unfold rep in *. apply Forall_forall. intros e He. apply in_map_iff in He as (e0 & <- & He).
    pose proof (proj1 (Forall_forall _ _) R e0 He) as G. cbn beta in G. unfold set_links. destruct (Nat.eqb_spec (fst e0) i) as [Ee|Ee]; cbn [fst snd].
    + rewrite Ee in *. rewrite nth_upd_same, G. auto.
    + rewrite nth_upd_other by auto. auto.
  - rewrite length_upd. replace (ids_l (map sv l)) with (ids_l l); auto.
    rewrite <- (flat_list_ids l None None None), <- (flat_list_ids (map sv l) None None None), sv_flat_list, map_map.
    apply map_ext. intros [a b]. unfold set_links. simpl. destruct (Nat.eqb a i); auto.
  - rewrite sv_hd_id. auto.
  - rewrite sv_last_of; auto. intros; apply sv_rlp.
Qed.
Lemma replaced_zero F l : zero_spans F l -> zero_spans F (map sv l).
Proof. intros H HI x Hx. rewrite sv_preorder_list in Hx. apply in_map_iff in Hx as (y & <- & Hy). rewrite sv_span. auto. Qed.
Lemma replaced_order l : in_order l -> in_order (map sv l).
Proof. unfold in_order. rewrite sv_preorder_list, map_map, map_length. intros H. rewrite <- H. apply map_ext. apply sv_id. Qed.
End Replaced.
