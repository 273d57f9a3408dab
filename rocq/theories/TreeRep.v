(** Finished trees: the link table of a built tree represents its document. *)
From Coq Require Import Lia Permutation.
From Verif Require Import Base Pointer Index Tree Builder Hist Node Spec Rep Marks Refine.

Section TreeRep.
Context {T : Type}.
Implicit Types x y z q u r : rose T.
Implicit Types l s kids : list (rose T).
Implicit Types t : tree T.
Implicit Types nodes : list (links T).
Implicit Types p : option (rose T).

Record tree_rep (t : tree T) (l : list (rose T)) : Prop := {
  tr_rep : rep (t_nodes t) (flat_list None None l None);
  tr_perm : Permutation (ids_l l) (seq 0 (length (t_nodes t)));
  tr_first : t_first t = hd_id l None;
  tr_last : t_last t = last_of rlp l None;
}.

Lemma built_rep F ops t l :
  vec_flavor F -> document F ops l -> builds F ops t -> tree_rep t l.
Proof.
  intros HF (a & rs & Hd & Ho & <-) Hb.
  destruct (refines F HF ops a rs Hd) as (w & E & HR).
  unfold builds, run_world in Hb. rewrite E in Hb. simpl in Hb.
  destruct HR as [[H1 H2 H3 H4 H5 H6 H7 H8 H9 H10] _].
  unfold build in Hb. rewrite H4, Ho in Hb. simpl in Hb. injection Hb as <-.
  rewrite Ho in *. unfold flat_doc in H1. rewrite Ho in H1. simpl in H1. rewrite app_nil_r in H1.
  unfold doc_ids in H3. rewrite Ho in H3. simpl in H3. rewrite app_nil_r in H3.
  constructor; auto. rewrite H2. auto.
Qed.

Lemma tr_nodup t l : tree_rep t l -> NoDup (ids_l l).
Proof.
  intros H. eapply Permutation_NoDup; [symmetry; apply (tr_perm _ _ H)|apply seq_NoDup].
Qed.

(** ** The entries of every sibling list *)
Definition pid (p : option (rose T)) : option nat := option_map r_id p.

Lemma rep_sub nodes x : forall par prev nxt,
  rep nodes (flat par prev nxt x) ->
  forall y, In y (preorder x) -> rep nodes (flat_list (Some (r_id y)) None (r_kids y) None).
Proof.
  induction x as [id k d sp kids IH] using rose_ind'. intros par prev nxt H y Hy.
  rewrite flat_eq in H. apply rep_cons in H as [_ H].
  simpl in Hy. destruct Hy as [<-|Hy]; auto.
  assert (G : forall l pv, Forall (fun x => forall par prev nxt, rep nodes (flat par prev nxt x) ->
       forall y, In y (preorder x) -> rep nodes (flat_list (Some (r_id y)) None (r_kids y) None)) l ->
     rep nodes (flat_list (Some id) pv l None) -> In y (flat_map preorder l) ->
     rep nodes (flat_list (Some (r_id y)) None (r_kids y) None)).
  { clear. induction l as [|z l IHl]; intros pv HF Hr Hy; simpl in *; [tauto|].
    inversion HF; subst. apply rep_app in Hr as [Hr1 Hr2]. apply in_app_iff in Hy as [Hy|Hy]; eauto. }
  eapply G; eauto.
Qed.

Lemma rep_sub_list nodes l : forall par prev nxt,
  rep nodes (flat_list par prev l nxt) ->
  forall y, In y (preorder_list l) -> rep nodes (flat_list (Some (r_id y)) None (r_kids y) None).
Proof.
  induction l as [|z l IHl]; intros par prev nxt Hr y Hy; simpl in *; [tauto|].
  apply rep_app in Hr as [Hr1 Hr2]. apply in_app_iff in Hy as [Hy|Hy]; eauto.
  eapply rep_sub; eauto.
Qed.

Lemma rep_siblings t l p s :
  tree_rep t l -> In (p, s) (sibling_lists l) -> rep (t_nodes t) (flat_list (pid p) None s None).
Proof.
  intros H [E|Hi].
  - injection E as <- <-. apply (tr_rep _ _ H).
  - apply in_map_iff in Hi as (x & E & Hx). injection E as <- <-.
    eapply rep_sub_list; eauto. apply (tr_rep _ _ H).
Qed.

Definition links_of (par prev nxt : option nat) (x : rose T) : links T :=
  Links (r_data x) (r_span x) par prev nxt (hd_id (r_kids x) None)
        (last_field (r_kind x) (r_kids x)).

Lemma flat_head par prev nxt x :
  flat par prev nxt x = (r_id x, links_of par prev nxt x) ::
    flat_list (Some (r_id x)) None (r_kids x) None.
Proof. destruct x. apply flat_eq. Qed.

(** The record found at a node. *)
Lemma node_links t l p s1 x s2 :
  tree_rep t l -> In (p, s1 ++ x :: s2) (sibling_lists l) ->
  nth_error (t_nodes t) (r_id x) =
    Some (links_of (pid p) (last_id s1 None) (hd_id s2 None) x).
Proof.
  intros H Hi. apply (rep_siblings _ _ _ _ H) in Hi.
  rewrite flat_list_app in Hi. apply rep_app in Hi as [_ Hi].
  cbn [flat_list] in Hi. apply rep_app in Hi as [Hi _].
  rewrite flat_head in Hi. apply rep_cons in Hi. tauto.
Qed.

Lemma view_links i par prev nxt x :
  i = r_id x -> view (i, links_of par prev nxt x) = rview x.
Proof.
  intros ->. unfold view, rview, node_value, node_span, has_children, has_kids; simpl.
  destruct (r_kids x); auto.
Qed.

(** Every node is in a sibling list. *)
Lemma preorder_self (x : rose T) : In x (preorder x).
Proof. destruct x; simpl; auto. Qed.

Lemma preorder_kid (q u : rose T) : forall r, In q (preorder r) -> In u (r_kids q) -> In u (preorder r).
Proof.
  induction r as [id k d sp kids IH] using rose_ind'. intros Hq Hu.
  simpl in Hq. destruct Hq as [E|Hq].
  - subst q. simpl in *. right. apply in_flat_map. exists u. split; auto. apply preorder_self.
  - simpl. right. apply in_flat_map in Hq as (w & Hw & Hq). apply in_flat_map.
    exists w. split; auto. eapply Forall_forall in IH; eauto.
Qed.

Lemma preorder_list_kid (l : list (rose T)) q u :
  In q (preorder_list l) -> In u (r_kids q) -> In u (preorder_list l).
Proof.
  unfold preorder_list. intros Hq Hu. apply in_flat_map in Hq as (r & Hr & Hq).
  apply in_flat_map. exists r. split; auto. eapply preorder_kid; eauto.
Qed.

Lemma preorder_list_top (l : list (rose T)) x : In x l -> In x (preorder_list l).
Proof. intros H. apply in_flat_map. exists x. split; auto. apply preorder_self. Qed.

Lemma sibling_list_in l p s (x : rose T) :
  In (p, s) (sibling_lists l) -> In x s -> In x (preorder_list l).
Proof.
  intros [E|Hi] Hx.
  - injection E as <- <-. apply preorder_list_top; auto.
  - apply in_map_iff in Hi as (q & E & Hq). injection E as <- <-.
    eapply preorder_list_kid; eauto.
Qed.

Lemma kids_sibling_list l (x : rose T) :
  In x (preorder_list l) -> In (Some x, r_kids x) (sibling_lists l).
Proof. intros H. right. apply in_map_iff. eauto. Qed.

Lemma in_sibling_lists l (x : rose T) :
  In x (preorder_list l) -> exists p s1 s2, In (p, s1 ++ x :: s2) (sibling_lists l).
Proof.
  intros H. apply in_flat_map in H as (r & Hr & Hx).
  assert (G : forall r p s, In (p, s) (sibling_lists l) -> In r s -> In x (preorder r) ->
     exists p s1 s2, In (p, s1 ++ x :: s2) (sibling_lists l)).
  { clear r Hr Hx. induction r as [id k d sp kids IH] using rose_ind'. intros p s Hs Hr Hx.
    pose proof (sibling_list_in _ _ _ _ Hs Hr) as Hp.
    simpl in Hx. destruct Hx as [<-|Hx].
    - destruct (in_split _ _ Hr) as (s1 & s2 & ->). eauto.
    - apply in_flat_map in Hx as (v & Hv & Hx). eapply Forall_forall in IH; [|apply Hv].
      eapply IH; [|apply Hv|apply Hx]. apply (kids_sibling_list _ _ Hp). }
  apply (G r None l); auto. left; reflexivity.
Qed.

Lemma preorder_id_lt t l x : tree_rep t l -> In x (preorder_list l) -> r_id x < length (t_nodes t).
Proof.
  intros H Hx. assert (Hi : In (r_id x) (ids_l l)).
  { rewrite ids_l_preorder. apply in_map; auto. }
  eapply Permutation_in in Hi; [|apply (tr_perm _ _ H)]. apply in_seq in Hi. lia.
Qed.

Lemma preorder_id_inj t l x y :
  tree_rep t l -> In x (preorder_list l) -> In y (preorder_list l) -> r_id x = r_id y -> x = y.
Proof.
  intros H. apply tr_nodup in H. rewrite ids_l_preorder in H.
  revert H. generalize (preorder_list l). induction l0 as [|z l0 IH]; simpl; [tauto|].
  intros Hd [->|Hx] [->|Hy] E; auto; inversion Hd; subst.
  - exfalso. apply H1. rewrite E. apply in_map; auto.
  - exfalso. apply H1. rewrite <- E. apply in_map; auto.
  - auto.
Qed.

Lemma preorder_of_id t l i : tree_rep t l -> i < length (t_nodes t) ->
  exists x, In x (preorder_list l) /\ r_id x = i.
Proof.
  intros H Hi. assert (G : In i (ids_l l)).
  { eapply Permutation_in; [symmetry; apply (tr_perm _ _ H)|]. apply in_seq. lia. }
  rewrite ids_l_preorder in G. apply in_map_iff in G as (x & E & Hx). eauto.
Qed.

Lemma tr_length t l : tree_rep t l -> length (t_nodes t) = length (preorder_list l).
Proof.
  intros H. pose proof (Permutation_length (tr_perm _ _ H)) as E.
  rewrite seq_length, ids_l_preorder, map_length in E. auto.
Qed.
End TreeRep.
