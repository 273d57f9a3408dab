(** How a link table represents a document (zipper): representation relation and
    basic lemmas. *)
From Coq Require Import Lia Permutation.
From Verif Require Import Base Pointer Index Tree Builder Hist Spec.

(** ** Lists and array update *)
Lemma length_upd {A} (l : list A) i f : length (upd l i f) = length l.
Proof. revert i; induction l as [|x l IH]; intros [|i]; simpl; auto. Qed.

Lemma nth_upd_same {A} (l : list A) i f :
  nth_error (upd l i f) i = option_map f (nth_error l i).
Proof. revert i; induction l as [|x l IH]; intros [|i]; simpl; auto. Qed.

Lemma nth_upd_other {A} (l : list A) i j f :
  i <> j -> nth_error (upd l i f) j = nth_error l j.
Proof.
  revert i j; induction l as [|x l IH]; intros [|i] [|j] H; simpl; auto; try lia.
Qed.

Lemma upd_app1 {A} (l1 l2 : list A) i f :
  i < length l1 -> upd (l1 ++ l2) i f = upd l1 i f ++ l2.
Proof.
  revert i; induction l1 as [|x l1 IH]; intros [|i] H; simpl in *; try lia; auto.
  rewrite IH by lia; auto.
Qed.

Lemma upd_none {A} (l : list A) i f : nth_error l i = None -> upd l i f = l.
Proof.
  revert i; induction l as [|x l IH]; intros [|i] H; simpl in *; auto; try congruence.
  rewrite IH; auto.
Qed.

Lemma NoDup_app_iff {A} (l1 l2 : list A) :
  NoDup (l1 ++ l2) <-> NoDup l1 /\ NoDup l2 /\ (forall x, In x l1 -> ~ In x l2).
Proof.
  induction l1 as [|a l1 IH]; simpl.
  - split; [intros; repeat split; auto; constructor | tauto].
  - split.
    + intros H; inversion H as [|? ? Hn Hd]; subst.
      apply IH in Hd. destruct Hd as (H1 & H2 & H3).
      rewrite in_app_iff in Hn.
      repeat split; auto; [constructor; auto|].
      intros x [<-|Hx]; auto.
    + intros (H1 & H2 & H3). inversion H1; subst.
      constructor.
      * rewrite in_app_iff. intros [?|?]; auto. eapply H3; eauto.
      * apply IH; repeat split; auto.
Qed.

Lemma opt_nat_eqb_spec a b : reflect (a = b) (opt_nat_eqb a b).
Proof.
  destruct a as [x|], b as [y|]; simpl; try (constructor; congruence).
  destruct (Nat.eqb_spec x y); constructor; congruence.
Qed.

Lemma opt_nat_eqb_refl a : opt_nat_eqb a a = true.
Proof. destruct (opt_nat_eqb_spec a a); congruence. Qed.

Global Arguments opt_nat_eqb : simpl never.

(** ** Roses *)
Section RoseInd.
  Variable T : Type.
  Variable P : rose T -> Prop.
  Hypothesis H : forall id k d sp kids, Forall P kids -> P (Nd id k d sp kids).
  Fixpoint rose_ind' (t : rose T) : P t :=
    match t with
    | Nd id k d sp kids =>
        H id k d sp kids
          ((fix go l : Forall P l :=
              match l with
              | [] => Forall_nil P
              | x :: l => Forall_cons x (rose_ind' x) (go l)
              end) kids)
    end.
End RoseInd.

Section Rep.
Context {T : Type}.
Implicit Types t x : rose T.
Implicit Types l kids : list (rose T).
Implicit Types nodes : list (links T).

Fixpoint ids (t : rose T) : list nat :=
  match t with Nd i _ _ _ kids => i :: flat_map ids kids end.
Definition ids_l (l : list (rose T)) := flat_map ids l.

Lemma ids_l_app l1 l2 : ids_l (l1 ++ l2) = ids_l l1 ++ ids_l l2.
Proof. apply flat_map_app. Qed.

Lemma ids_preorder t : ids t = map r_id (preorder t).
Proof.
  induction t as [id k d sp kids IH] using rose_ind'. simpl. f_equal.
  induction IH; simpl; auto. rewrite map_app. congruence.
Qed.

Lemma ids_l_preorder l : ids_l l = map r_id (preorder_list l).
Proof.
  unfold ids_l, preorder_list. induction l; simpl; auto.
  rewrite map_app, <- ids_preorder. congruence.
Qed.

(** Identifier of the first / last element of a sibling list. *)
Definition hd_id (l : list (rose T)) (d : option nat) : option nat :=
  match l with [] => d | x :: _ => Some (r_id x) end.
Fixpoint last_id (l : list (rose T)) (d : option nat) : option nat :=
  match l with [] => d | x :: l => last_id l (Some (r_id x)) end.

Lemma hd_id_app l1 l2 d : hd_id (l1 ++ l2) d = hd_id l1 (hd_id l2 d).
Proof. destruct l1; auto. Qed.
Lemma last_id_app l1 l2 d : last_id (l1 ++ l2) d = last_id l2 (last_id l1 d).
Proof. revert d; induction l1; simpl; auto. Qed.

Lemma last_id_cons_some x l d : exists i, last_id (x :: l) d = Some i /\ In i (map r_id (x :: l)).
Proof.
  revert x d; induction l as [|y l IH]; intros x d; simpl.
  - eauto.
  - destruct (IH y (Some (r_id x))) as (i & E & Hi). simpl in *. rewrite E. eauto.
Qed.

Lemma in_r_id_ids l i : In i (map r_id l) -> In i (ids_l l).
Proof.
  induction l as [|x l IH]; simpl; [tauto|]. intros [<-|H].
  - destruct x; simpl; auto.
  - rewrite in_app_iff; auto.
Qed.

(** What the code keeps in the [last] field of an opened node whose children
    are [l]: wrapping by [close_at] moves it only when it wraps exactly the
    node it denotes. *)
Fixpoint lp (t : rose T) : nat :=
  match t with
  | Nd id KWrap _ _ kids =>
      match kids with
      | [x] => if Nat.eqb (lp x) (r_id x) then id else lp x
      | _ => (fix go l := match l with [] => id | [x] => lp x | _ :: l => go l end) kids
      end
  | Nd id _ _ _ _ => id
  end.
(** .. and in [Tree::last], which no [close_at] ever moves. *)
Fixpoint rlp (t : rose T) : nat :=
  match t with
  | Nd id KWrap _ _ kids =>
      (fix go l := match l with [] => id | [x] => rlp x | _ :: l => go l end) kids
  | Nd id _ _ _ _ => id
  end.
Definition last_of (f : rose T -> nat) (l : list (rose T)) (d : option nat) : option nat :=
  fold_left (fun _ x => Some (f x)) l d.

Lemma last_of_app f l1 l2 d : last_of f (l1 ++ l2) d = last_of f l2 (last_of f l1 d).
Proof. apply fold_left_app. Qed.
Lemma last_of_snoc f l x d : last_of f (l ++ [x]) d = Some (f x).
Proof. rewrite last_of_app; auto. Qed.

Definition last_field (k : kind) (l : list (rose T)) : option nat :=
  match k with
  | KWrap => last_id l None
  | _ => last_of lp l None
  end.

(** ** Expected table entries *)
Notation entry := (nat * links T)%type (only parsing).

Fixpoint flat (par prev nxt : option nat) (t : rose T) : list entry :=
  match t with
  | Nd id k d sp kids =>
      (id, Links d sp par prev nxt (hd_id kids None) (last_field k kids)) ::
      (fix go prev l :=
         match l with
         | [] => []
         | x :: l => flat (Some id) prev (hd_id l None) x ++ go (Some (r_id x)) l
         end) None kids
  end.

Fixpoint flat_list (par prev : option nat) (l : list (rose T)) (nxt : option nat) : list entry :=
  match l with
  | [] => []
  | x :: l => flat par prev (hd_id l nxt) x ++ flat_list par (Some (r_id x)) l nxt
  end.

Lemma flat_eq par prev nxt id k d sp kids :
  flat par prev nxt (Nd id k d sp kids) =
  (id, Links d sp par prev nxt (hd_id kids None) (last_field k kids)) ::
  flat_list (Some id) None kids None.
Proof.
  simpl. f_equal.
  match goal with |- ?g None kids = flat_list ?a None kids ?n =>
    enough (H : forall pv, g pv kids = flat_list a pv kids n) by apply H end.
  induction kids as [|x l IH]; intros pv; simpl; auto. rewrite IH. auto.
Qed.

Fixpoint flat_frames (fs : list (frame T)) (cf cl : option nat) : list entry :=
  match fs with
  | [] => []
  | f :: fs =>
      (f_id f, Links (f_data f) (f_span f) (level fs) (last_id (f_left f) None) None cf cl)
      :: flat_list (level fs) None (f_left f) (Some (f_id f))
      ++ flat_frames fs (hd_id (f_left f) (Some (f_id f))) (Some (f_id f))
  end.

Definition flat_doc (a : doc T) : list entry :=
  flat_list (level (a_open a)) None (a_cur a) None ++
  flat_frames (a_open a) (hd_id (a_cur a) None) (last_of lp (a_cur a) None).

Fixpoint frames_ids (fs : list (frame T)) : list nat :=
  match fs with
  | [] => []
  | f :: fs => f_id f :: ids_l (f_left f) ++ frames_ids fs
  end.
Definition doc_ids (a : doc T) : list nat := ids_l (a_cur a) ++ frames_ids (a_open a).

Fixpoint root_first (fs : list (frame T)) (cf : option nat) : option nat :=
  match fs with
  | [] => cf
  | f :: fs => root_first fs (hd_id (f_left f) (Some (f_id f)))
  end.
Fixpoint root_last (fs : list (frame T)) (cl : option nat) : option nat :=
  match fs with
  | [] => cl
  | f :: fs => root_last fs (Some (f_id f))
  end.

Lemma flat_ids t : forall par prev nxt, map fst (flat par prev nxt t) = ids t.
Proof.
  induction t as [id k d sp kids IH] using rose_ind'. intros.
  rewrite flat_eq. simpl. f_equal.
  match goal with |- map fst (flat_list ?a None kids ?n) = ?r =>
    enough (H : forall pv, map fst (flat_list a pv kids n) = r) by apply H end.
  induction IH as [|x l Hx _ IHl]; intros pv; simpl; auto.
  rewrite map_app, Hx, IHl. auto.
Qed.

Lemma flat_list_ids l : forall par prev nxt, map fst (flat_list par prev l nxt) = ids_l l.
Proof.
  induction l as [|x l IH]; intros; simpl; auto.
  rewrite map_app, flat_ids, IH. auto.
Qed.

Lemma flat_frames_ids fs : forall cf cl, map fst (flat_frames fs cf cl) = frames_ids fs.
Proof.
  induction fs as [|f fs IH]; intros; simpl; auto.
  rewrite map_app, flat_list_ids, IH. auto.
Qed.

Lemma flat_doc_ids a : map fst (flat_doc a) = doc_ids a.
Proof. unfold flat_doc, doc_ids. rewrite map_app, flat_list_ids, flat_frames_ids. auto. Qed.

Lemma flat_list_app l1 l2 par prev nxt :
  flat_list par prev (l1 ++ l2) nxt =
  flat_list par prev l1 (hd_id l2 nxt) ++ flat_list par (last_id l1 prev) l2 nxt.
Proof.
  revert prev; induction l1 as [|x l1 IH]; intros prev; simpl; auto.
  rewrite IH, app_assoc, hd_id_app. auto.
Qed.

(** ** Tables holding given entries *)
Definition rep (nodes : list (links T)) (L : list entry) : Prop :=
  Forall (fun e => nth_error nodes (fst e) = Some (snd e)) L.

Lemma rep_app nodes L1 L2 : rep nodes (L1 ++ L2) <-> rep nodes L1 /\ rep nodes L2.
Proof. apply Forall_app. Qed.

Lemma rep_cons nodes i e L :
  rep nodes ((i, e) :: L) <-> nth_error nodes i = Some e /\ rep nodes L.
Proof. unfold rep. rewrite Forall_cons_iff. reflexivity. Qed.

Lemma rep_nil nodes : rep nodes [].
Proof. constructor. Qed.

Lemma rep_push nodes e L : rep nodes L -> rep (nodes ++ [e]) L.
Proof.
  intros H. eapply Forall_impl; [|apply H]. intros [i x]; simpl. intros E.
  rewrite nth_error_app1; auto. apply nth_error_Some. congruence.
Qed.

Lemma rep_upd_other nodes i f L :
  ~ In i (map fst L) -> rep nodes L -> rep (upd nodes i f) L.
Proof.
  induction L as [|[j e] L IH]; intros Hn H; [constructor|].
  apply rep_cons in H as [E H]. simpl in Hn.
  apply rep_cons. split.
  - rewrite nth_upd_other; auto.
  - apply IH; auto.
Qed.

Lemma rep_in nodes L i e : rep nodes L -> In (i, e) L -> nth_error nodes i = Some e.
Proof. intros H Hi. eapply Forall_forall in H; eauto. auto. Qed.

(** Same ids, new contents. *)
Lemma rep_upd_head nodes i e f L e' :
  rep nodes ((i, e) :: L) -> ~ In i (map fst L) -> f e = e' ->
  rep (upd nodes i f) ((i, e') :: L).
Proof.
  intros H Hn <-. apply rep_cons in H as [E H]. apply rep_cons. split.
  - rewrite nth_upd_same, E. auto.
  - apply rep_upd_other; auto.
Qed.

(** Setting [next] of the last element of a sibling list. *)
Lemma rep_set_next' nodes par l : forall prev i n nxt,
  rep nodes (flat_list par prev l nxt) -> NoDup (ids_l l) ->
  last_id l None = Some i ->
  rep (upd nodes i (set_l_next (Some n))) (flat_list par prev l (Some n)).
Proof.
  induction l as [|x l IH]; intros prev i n nxt H Hd Hl; [discriminate|].
  simpl in Hl, H, Hd |- *. apply rep_app in H as [H1 H2].
  apply NoDup_app_iff in Hd as (Hd1 & Hd2 & Hd3).
  apply rep_app.
  destruct l as [|y l].
  - simpl in Hl. injection Hl as <-. destruct x as [id k d sp kids]. simpl in *.
    split; [|constructor].
    change (rep (upd nodes id (set_l_next (Some n))) (flat par prev (Some n) (Nd id k d sp kids))).
    change (rep nodes (flat par prev nxt (Nd id k d sp kids))) in H1.
    rewrite flat_eq in H1 |- *.
    eapply rep_upd_head; eauto.
    rewrite flat_list_ids. inversion Hd1; auto.
  - destruct (last_id_cons_some y l (Some (r_id x))) as (j & Ej & Hj).
    simpl in Ej, Hl. rewrite Ej in Hl. injection Hl as ->.
    split.
    + change (hd_id (y :: l) (Some n)) with (hd_id (y :: l) nxt).
      apply rep_upd_other; auto. rewrite flat_ids.
      intros Hin. eapply Hd3; eauto. apply in_r_id_ids; auto.
    + eapply IH; eauto.
Qed.
Lemma rep_set_next nodes par l prev i n :
  rep nodes (flat_list par prev l None) -> NoDup (ids_l l) ->
  last_id l None = Some i ->
  rep (upd nodes i (set_l_next (Some n))) (flat_list par prev l (Some n)).
Proof. apply rep_set_next'. Qed.

Lemma last_id_none_irrel x l d d' : last_id (x :: l) d = last_id (x :: l) d'.
Proof. reflexivity. Qed.

(** [first]/[last]/... of sub-lists do not depend on the parent: reparenting *)
Lemma rep_set_parent_one nodes par par' prev prev' nxt t f :
  rep nodes (flat par prev nxt t) -> NoDup (ids t) ->
  (forall d sp cf cl, f (Links d sp par prev nxt cf cl) = Links d sp par' prev' nxt cf cl) ->
  rep (upd nodes (r_id t) f) (flat par' prev' nxt t).
Proof.
  destruct t as [id k d sp kids]. rewrite !flat_eq. simpl. intros H Hd Hf.
  eapply rep_upd_head; eauto. rewrite flat_list_ids. inversion Hd; auto.
Qed.

(** [restructure_close_at] over a well-formed sibling list. *)
Lemma restructure_spec : forall l x fuel nodes par prev new,
  rep nodes (flat_list par prev (x :: l) None) -> NoDup (ids_l (x :: l)) ->
  length (x :: l) <= fuel ->
  exists nodes',
    restructure fuel new (r_id x) nodes =
      (nodes', Ok (match last_id l (Some (r_id x)) with Some i => i | None => r_id x end,
                   run_end x l)) /\
    length nodes' = length nodes /\
    rep nodes' (flat_list (Some new) prev (x :: l) None) /\
    (forall i, ~ In i (ids_l (x :: l)) -> nth_error nodes' i = nth_error nodes i).
Proof.
  induction l as [|y l IH]; intros x fuel nodes par prev new H Hd Hf;
    (destruct fuel as [|fuel]; [simpl in Hf; lia|]).
  - simpl in H. rewrite app_nil_r in H. simpl in Hd. rewrite app_nil_r in Hd.
    assert (exists d sp cf cl, nth_error nodes (r_id x) = Some (Links d sp par prev None cf cl)
             /\ sp = r_span x) as (d & sp & cf & cl & E & ->).
    { destruct x as [id k d sp kids]. rewrite flat_eq in H. apply rep_cons in H as [E _].
      simpl. repeat eexists; eauto. }
    simpl. rewrite E. simpl.
    eexists; split; [reflexivity|]. rewrite length_upd. split; auto.
    rewrite !app_nil_r. split.
    + eapply rep_set_parent_one; eauto.
    + intros i Hi. rewrite nth_upd_other; auto. intros <-. apply Hi. destruct x; simpl; auto.
  - cbn [flat_list] in H. apply rep_app in H as [H1 H2].
    change (ids_l (x :: y :: l)) with (ids x ++ ids_l (y :: l)) in *.
    apply NoDup_app_iff in Hd as (Hd1 & Hd2 & Hd3).
    assert (exists d sp cf cl,
      nth_error nodes (r_id x) = Some (Links d sp par prev (Some (r_id y)) cf cl))
      as (d & sp & cf & cl & E).
    { destruct x as [id k d sp kids]. rewrite flat_eq in H1. apply rep_cons in H1 as [E _].
      simpl. repeat eexists; eauto. }
    cbn [restructure]. rewrite E. cbn [l_next].
    assert (Hx : In (r_id x) (ids x)) by (destruct x; simpl; auto).
    assert (H2' : rep (upd nodes (r_id x) (set_l_parent (Some new)))
                    (flat_list par (Some (r_id x)) (y :: l) None)).
    { apply rep_upd_other; auto. rewrite flat_list_ids. auto. }
    assert (H1' : rep (upd nodes (r_id x) (set_l_parent (Some new)))
                    (flat (Some new) prev (Some (r_id y)) x)).
    { eapply rep_set_parent_one; eauto. }
    destruct (IH y fuel _ par (Some (r_id x)) new H2' Hd2) as (nodes' & E' & L' & R' & O').
    { simpl in *. lia. }
    exists nodes'. split; [|split; [|split]].
    + rewrite E'. f_equal. cbn [last_id].
      destruct l; auto.
      destruct (last_id_cons_some r l (Some (r_id y))) as (j & Ej & _). simpl in Ej |- *.
      rewrite Ej. auto.
    + rewrite L', length_upd. auto.
    + cbn [flat_list]. apply rep_app. split; [|apply R'].
      unfold rep in H1' |- *. eapply Forall_impl; [|apply Forall_and; [apply H1'|]].
      2: { apply Forall_forall. intros e He.
           assert (Hn : ~ In (fst e) (ids_l (y :: l))).
           { apply Hd3. rewrite <- (flat_ids x (Some new) prev (Some (r_id y))).
             apply in_map; auto. }
           exact Hn. }
      intros e [Ha Hb]. simpl in *. rewrite O'; auto.
    + intros i Hi. rewrite in_app_iff in Hi. rewrite O' by tauto.
      rewrite nth_upd_other; auto. intros <-. tauto.
Qed.

End Rep.
