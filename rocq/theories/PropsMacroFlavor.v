(** C76: the [flavor!] macro. *)
From Coq Require Import Lia.
From Verif Require Import Base Pointer Index Tree Builder Hist MacroFlavor SpecMacroFlavor.

Lemma tok_eqb_eq a b : tok_eqb a b = true <-> a = b /\ forall t, a <> Type_ t.
Proof.
  assert (N1 : forall x y, name_eqb x y = true <-> x = y).
  { intros [] []; simpl; split; intros H; try discriminate; auto; try (apply Nat.eqb_eq in H; congruence). injection H as ->. apply Nat.eqb_refl. }
  destruct a, b; simpl; split; intros H; try discriminate; try (destruct H as [H _]; discriminate); try (split; auto; congruence); auto.
  - apply N1 in H. split; congruence.
  - destruct H as [H _]. injection H as ->. apply N1. auto.
  - destruct H as [H G]. exfalso. eapply G; eauto.
Qed.
Lemma flat_field n s l r : match_flat (field n) s = Some (l, r) <-> exists t, l = [t] /\ s = said n t ++ r.
Proof.
  split.
  - intros H. unfold field in H. cbn [match_flat] in H.
    destruct s as [|a s]; [discriminate|]. destruct (tok_eqb KType a) eqn:E1; [|discriminate]. apply tok_eqb_eq in E1 as [<- _].
    destruct s as [|b s]; [discriminate|]. destruct (tok_eqb (Name n) b) eqn:E2; [|discriminate]. apply tok_eqb_eq in E2 as [<- _].
    destruct s as [|c s]; [discriminate|]. destruct (tok_eqb Equals c) eqn:E3; [|discriminate]. apply tok_eqb_eq in E3 as [<- _].
    destruct s as [|[| | |t|] s]; try discriminate. destruct s as [|d s]; [discriminate|]. destruct (tok_eqb Semi d) eqn:E4; [|discriminate]. apply tok_eqb_eq in E4 as [<- _].
    injection H as <- <-. exists t. auto.
  - intros (t & -> & ->). unfold field, said. cbn [app match_flat tok_eqb]. destruct n; cbn [name_eqb]; rewrite ?Nat.eqb_refl; auto.
Qed.
Lemma all_field n ps s b : In b (match_all (field n ++ ps) s) <-> exists t r b', b = Some t :: b' /\ s = said n t ++ r /\ In b' (match_all ps r).
Proof.
  split.
  - intros H. unfold field in H. cbn [app match_all] in H.
    destruct s as [|a s]; [destruct H|]. destruct (tok_eqb KType a) eqn:E1; [|destruct H]. apply tok_eqb_eq in E1 as [<- _].
    destruct s as [|b1 s]; [destruct H|]. destruct (tok_eqb (Name n) b1) eqn:E2; [|destruct H]. apply tok_eqb_eq in E2 as [<- _].
    destruct s as [|c s]; [destruct H|]. destruct (tok_eqb Equals c) eqn:E3; [|destruct H]. apply tok_eqb_eq in E3 as [<- _].
    destruct s as [|[| | |t|] s]; try (destruct H; fail). apply in_map_iff in H as (b' & <- & H).
    destruct s as [|d s]; [destruct H|]. destruct (tok_eqb Semi d) eqn:E4; [|destruct H]. apply tok_eqb_eq in E4 as [<- _]. exists t, s, b'. auto.
  - intros (t & r & b' & -> & -> & H). unfold field, said. cbn [app match_all tok_eqb]. 
    assert (Q : In (Some t :: b') (map (cons (Some t)) (match_all ps r))) by (apply in_map; auto).
    destruct n; cbn [name_eqb]; rewrite ?Nat.eqb_refl; exact Q.
Qed.
Lemma all_opt n ps s b : In b (match_all (POpt (field n) :: ps) s) <-> exists o r b', b = o :: b' /\ s = maybe n o ++ r /\ In b' (match_all ps r).
Proof.
  cbn [match_all]. rewrite in_app_iff, in_map_iff. split.
  - intros [(b' & <- & H)|H]; [exists None, s, b'; auto|]. destruct (match_flat (field n) s) as [[[|t []] r]|] eqn:E; try (destruct H; fail).
    apply in_map_iff in H as (b' & <- & H). apply flat_field in E as (t' & Et & ->). injection Et as <-. exists (Some t), r, b'. auto.
  - intros ([t|] & r & b' & -> & -> & H); [right|left; eauto]. simpl maybe. assert (E : match_flat (field n) (said n t ++ r) = Some ([t], r)) by (apply flat_field; eauto). rewrite E. apply in_map. auto.
Qed.
Lemma all_body s b : In b (match_all body_pattern s) <-> exists i w st x, b = [Some i; w; st; x] /\ s = call i w st x.
Proof.
  unfold body_pattern. rewrite all_field. split.
  - intros (i & r & b' & -> & -> & H). apply all_opt in H as (w & r1 & b1 & -> & -> & H). apply all_opt in H as (st & r2 & b2 & -> & -> & H). apply all_opt in H as (x & r3 & b3 & -> & -> & H).
    cbn [match_all] in H. destruct r3; [|destruct H]. destruct H as [<-|[]]. exists i, w, st, x. unfold call. rewrite app_nil_r. auto.
  - intros (i & w & st & x & -> & ->). unfold call. exists i, (maybe NWidth w ++ maybe NStorage st ++ maybe NIndexes x), [w; st; x]. split; auto. split; auto.
    apply all_opt. exists w, (maybe NStorage st ++ maybe NIndexes x), [st; x]. split; auto. split; auto. apply all_opt. exists st, (maybe NIndexes x), [x]. split; auto. split; auto.
    apply all_opt. exists x, [], []. rewrite app_nil_r. simpl. auto.
Qed.
Lemma call_inj i w st x i' w' st' x' : call i w st x = call i' w' st' x' -> (i, w, st, x) = (i', w', st', x').
Proof. unfold call, maybe, said. destruct w, st, x, w', st', x'; cbn [app]; intros E; try discriminate; injection E; intros; subst; auto; discriminate. Qed.
Lemma nodup_opt n ps s : (forall r, NoDup (match_all ps r)) -> NoDup (match_all (POpt (field n) :: ps) s).
Proof.
  assert (NM : forall (o : option ty) (l : list binds), NoDup l -> NoDup (map (cons o) l)).
  { induction 1 as [|y l Hy Hl IH]; simpl; constructor; auto. intros H. apply in_map_iff in H as (z & E & Hz). injection E as ->. auto. }
  intros H. cbn [match_all]. destruct (match_flat (field n) s) as [[[|t []] r]|]; rewrite ?app_nil_r; auto.
  specialize (NM). assert (A := NM None _ (H s)). assert (B := NM (Some t) _ (H r)). revert A B. generalize (match_all ps s) (match_all ps r). clear. intros l m A B.
  induction l as [|y l IH]; simpl in *; auto. inversion A as [|? ? A1 A2]; subst. constructor; auto. rewrite in_app_iff. intros [X|X]; auto. apply in_map_iff in X as (z & E & _). discriminate.
Qed.
Lemma nodup_field n ps s : (forall r, NoDup (match_all ps r)) -> NoDup (match_all (field n ++ ps) s).
Proof.
  intros G. unfold field. cbn [app match_all].
  destruct s as [|a s]; [constructor|]. destruct (tok_eqb KType a); [|constructor]. destruct s as [|b s]; [constructor|]. destruct (tok_eqb (Name n) b); [|constructor].
  destruct s as [|c s]; [constructor|]. destruct (tok_eqb Equals c); [|constructor]. destruct s as [|[| | |t|] s]; try (constructor; fail).
  destruct s as [|d s]; [constructor|]. destruct (tok_eqb Semi d); [|constructor].
  specialize (G s). revert G. generalize (match_all ps s). clear. intros l. induction 1 as [|y l Hy Hl IH]; cbn [map]; constructor; auto.
  intros H. apply in_map_iff in H as (z & E & Hz). injection E as ->. auto.
Qed.
Lemma body_unique s : NoDup (match_all body_pattern s).
Proof.
  unfold body_pattern. apply nodup_field. intros r. apply nodup_opt. intros r1. apply nodup_opt. intros r2. apply nodup_opt. intros r3. destruct r3; simpl; repeat constructor; auto.
Qed.
Lemma arm_body s b : match_arm body_pattern s = Some b <-> exists i w st x, b = [Some i; w; st; x] /\ s = call i w st x.
Proof.
  rewrite <- all_body. unfold match_arm. pose proof (body_unique s) as U. assert (O1 : forall c, In c (match_all body_pattern s) -> forall e, In e (match_all body_pattern s) -> c = e).
  { intros c Hc e He. apply all_body in Hc as (i & w & st & x & -> & Ec). apply all_body in He as (i' & w' & st' & x' & -> & Ee). rewrite Ec in Ee. apply call_inj in Ee. congruence. }
  destruct (match_all body_pattern s) as [|c [|e l]]; split; intros H; try discriminate; try (destruct H; fail).
  - injection H as ->. simpl; auto.
  - destruct H as [->|[]]; auto.
  - exfalso. inversion U as [|? ? X _]; subst. apply X. rewrite (O1 c ltac:(simpl; auto) e ltac:(simpl; auto)). simpl; auto.
Qed.

Lemma index_ok t i : index_of t = Some i <-> an_index t i.
Proof. split; [|intros []; auto]. destruct t as [[]| | | | |]; simpl; intros H; try discriminate; injection H as <-; constructor. Qed.
Lemma width_ok t i : width_of t = Some i <-> a_width t i.
Proof. split; [|intros []; auto]. destruct t; simpl; intros H; try discriminate; injection H as <-; constructor. Qed.
Lemma indexes_ok t i : indexes_of t = Some i <-> some_indexes t i.
Proof. split; [|intros []; auto]. destruct t; simpl; intros H; try discriminate; injection H as <-; constructor. Qed.

(** Which calls compile, and to what: an index type, then maybe a width ([usize] if there is none), maybe a storage of which nothing is used, maybe indexes
    ([Vec] if there are none), each at most once, in this order, and with types that can be used so. *)
Theorem C76_calls : forall m s F, flavor_macro m s = Some F <->
  exists index width storage indexes i w x, s = call index width storage indexes /\
    an_index index i /\ a_width (or_else width (TyInt Usize)) w /\ some_indexes (or_else indexes TyVec) x /\ F = Flavor m i w SVec x.
Proof.
  intros m s F. unfold flavor_macro. split.
  - destruct (match_arm body_pattern s) as [b|] eqn:E; [|discriminate]. apply arm_body in E as (i & w & st & x & -> & ->). unfold at_width, at_indexes.
    destruct (index_of i) eqn:E1; [|discriminate]. destruct (width_of _) eqn:E2; [|discriminate]. destruct (indexes_of _) eqn:E3; [|discriminate]. intros H. injection H as <-.
    apply index_ok in E1. apply width_ok in E2. apply indexes_ok in E3. exists i, w, st, x. eauto 10.
  - intros (index & width & st & indexes & i & w & x & -> & E1 & E2 & E3 & ->).
    assert (E : match_arm body_pattern (call index width st indexes) = Some [Some index; width; st; indexes]) by (apply arm_body; eauto 10).
    apply index_ok in E1. apply width_ok in E2. apply indexes_ok in E3. unfold or_else in *. rewrite E. unfold at_width, at_indexes. rewrite E1, E2, E3. auto.
Qed.
Print Assumptions C76_calls.

(** The flavors of the macro are exactly those that the theorems about builders and trees speak of. *)
Theorem C76_flavors : forall F, vec_flavor F <-> exists s, flavor_macro (fl_usize_max F) s = Some F.
Proof.
  intros F. split.
  - intros [H1 H2]. destruct F as [m i w st x]. simpl in *. subst st.
    exists (call (match i with IxU32 => TyInt U32 | IxUsize => TyInt Usize | IxEmpty => TyEmpty end) (Some (TyInt w)) None (Some (match x with SVec => TyVec | _ => TyEmptyVec end))).
    apply C76_calls. do 4 eexists. exists i, w, x. split; [reflexivity|]. split; [destruct i; constructor|]. split; [constructor|]. split; auto. destruct H2 as [->| ->]; constructor.
  - intros (s & H). apply C76_calls in H as (index & width & st & indexes & i & w & x & _ & _ & _ & E3 & ->). split; auto. simpl. inversion E3; auto.
Qed.
Print Assumptions C76_flavors.

(** [type Storage = ..] says nothing: with any type, also one that does not exist, the flavor is the same, stored in [Vec]. *)
Theorem C76_storage_ignored : forall m index width indexes st st' , flavor_macro m (call index width st indexes) = flavor_macro m (call index width st' indexes).
Proof.
  intros. unfold flavor_macro.
  assert (E : forall o, match_arm body_pattern (call index width o indexes) = Some [Some index; width; o; indexes]) by (intros; apply arm_body; eauto 10).
  rewrite !E. auto.
Qed.
Print Assumptions C76_storage_ignored.

(** The flavors of the documentation and of the crate; calls that do not compile: another order, a missing index, a width twice, a storage that can fail as indexes. *)
Example C76_examples :
  flavor_macro usize_max_64 (call (TyInt U32) (Some (TyInt Usize)) None None) = Some flavor_default /\
  flavor_macro usize_max_64 (call TyEmpty None None (Some TyEmptyVec)) = Some (Flavor usize_max_64 IxEmpty Usize SVec SEmptyVec) /\
  flavor_macro usize_max_64 (call (TyInt U32) (Some (TyInt U32)) None None) = Some (Flavor usize_max_64 IxU32 U32 SVec SVec) /\
  flavor_macro usize_max_64 (call (TyInt U32) None (Some (TyBounded 3)) None) = Some flavor_default /\
  flavor_macro usize_max_64 (said NWidth (TyInt U8) ++ said NIndex (TyInt U32)) = None /\
  flavor_macro usize_max_64 (said NWidth (TyInt U8)) = None /\
  flavor_macro usize_max_64 (said NIndex (TyInt U32) ++ said NWidth (TyInt U8) ++ said NWidth (TyInt U8)) = None /\
  flavor_macro usize_max_64 (call (TyInt U32) None None (Some (TyBounded 3))) = None /\
  flavor_macro usize_max_64 (call (TyInt U8) None None None) = None.
Proof. repeat split; vm_compute; reflexivity. Qed.
