(** examples/calculator: evaluation over documents. *)
From Coq Require Import Lia Permutation.
From Verif Require Import Base Pointer Index Tree Builder Hist Node Iter Print Spec SpecEq Rep TreeRep Enum Walk WalkTree WalkThms Nav Skip
  SpecProgram Text ClientMath ClientCalc SpecCalc PropsProgram CalcParse.

Lemma F2_length {A B} (R : A -> B -> Prop) l1 l2 : Forall2 R l1 l2 -> length l1 = length l2.
Proof. induction 1; simpl; auto. Qed.
Lemma filter_le {A} (p : A -> bool) l : length (filter p l) <= length l.
Proof. induction l as [|x l IH]; simpl; auto. destruct (p x); simpl; lia. Qed.
Notation cshape := (shape csyntax).
Definition sh_data (s : cshape) : csyntax := let 'Sh d _ _ := s in d.
Definition sh_span (s : cshape) : span := let 'Sh _ sp _ := s in sp.
Definition sh_kids (s : cshape) : list cshape := let 'Sh _ _ k := s in k.
Definition sh_node (s : cshape) : bool := match sh_kids s with [] => false | _ => true end.
Lemma erase_data (x : rose csyntax) : sh_data (erase x) = r_data x. Proof. destruct x; auto. Qed.
Lemma erase_span (x : rose csyntax) : sh_span (erase x) = r_span x. Proof. destruct x; auto. Qed.
Lemma erase_kids (x : rose csyntax) : sh_kids (erase x) = map erase (r_kids x). Proof. destruct x; auto. Qed.
Lemma erase_node (x : rose csyntax) : sh_node (erase x) = has_kids x. Proof. unfold sh_node, has_kids. rewrite erase_kids. destruct (r_kids x); auto. Qed.
Lemma filter_erase xs : filter sh_node (map erase xs) = map erase (filter (@has_kids csyntax) xs).
Proof. induction xs as [|x xs IH]; simpl; auto. rewrite erase_node. destruct (has_kids x); simpl; congruence. Qed.

(** ** The evaluation of a node, of the operators after a value, of the nodes in an operation. *)
Section Relation.
Variable source : str.
Definition failed (r : evaluation) : Prop := exists sp k, r = EvErr sp k.
Inductive sevals : cshape -> evaluation -> Prop :=
| se_group_none s : sh_data s = CGroup -> sh_kids s = [] -> sevals s (EvErr (sh_span s) (EMissing CNumber))
| se_group s k ks r : sh_data s = CGroup -> sh_kids s = k :: ks -> sevals k r -> sevals s r
| se_number s d z : sh_data s = CNumber -> str_get source (s_start (sh_span s), s_end (sh_span s)) = Some d -> parse_i64 d = Some z -> sevals s (EvOk z)
| se_bad_number s d : sh_data s = CNumber -> str_get source (s_start (sh_span s), s_end (sh_span s)) = Some d -> parse_i64 d = None ->
    sevals s (EvErr (sh_span s) EBadNumber)
| se_operation s r : sh_data s = COperation -> oevals (sh_span s) (filter sh_node (sh_kids s)) r -> sevals s r
| se_other s : sh_data s <> CGroup -> sh_data s <> CNumber -> sh_data s <> COperation ->
    sevals s (EvErr (sh_span s) (EExpected CNumber (sh_data s)))
with oevals : span -> list cshape -> evaluation -> Prop :=
| oe_missing sp : oevals sp [] (EvErr sp (EMissing CNumber))
| oe_first sp x xs r : sevals x r -> failed r -> oevals sp (x :: xs) r
| oe_ops sp x xs base r : sevals x (EvOk base) -> sops sp base xs r -> oevals sp (x :: xs) r
with sops : span -> Z -> list cshape -> evaluation -> Prop :=
| so_end sp base : sops sp base [] (EvOk base)
| so_unexpected sp base o k ks xs : sh_kids o = k :: ks -> calculate (sh_data k) = None ->
    sops sp base (o :: xs) (EvErr sp (EUnexpectedOperator (sh_data k)))
| so_missing sp base o k ks f : sh_kids o = k :: ks -> calculate (sh_data k) = Some f -> sops sp base [o] (EvErr sp (EMissing CNumber))
| so_operand sp base o k ks f x xs r : sh_kids o = k :: ks -> calculate (sh_data k) = Some f -> sevals x r -> failed r ->
    sops sp base (o :: x :: xs) r
| so_fails sp base o k ks f e x xs b : sh_kids o = k :: ks -> calculate (sh_data k) = Some (f, e) -> sevals x (EvOk b) -> f base b = None ->
    sops sp base (o :: x :: xs) (EvErr (span_join (sh_span k) sp) e)
| so_next sp base o k ks f e x xs b base' r : sh_kids o = k :: ks -> calculate (sh_data k) = Some (f, e) -> sevals x (EvOk b) -> f base b = Some base' ->
    sops sp base' xs r -> sops sp base (o :: x :: xs) r.
End Relation.
Scheme sevals_mind := Induction for sevals Sort Prop
with oevals_mind := Induction for oevals Sort Prop
with sops_mind := Induction for sops Sort Prop.
Combined Scheme evals_ind from sevals_mind, oevals_mind, sops_mind.

(** ** The program on a tree. *)
Section Link.
Variables (F : flavor) (source : str) (t : tree csyntax) (l : list (rose csyntax)).
Hypothesis HE : fl_index F <> IxEmpty.
Hypothesis Hrep : tree_rep t l.
Notation nodes := (t_nodes t).
Notation shows := (shows nodes).
Notation kids_rel := (enum_rel (total (children_next nodes)) shows).

Lemma shown_range n x : shows n x -> node_range F n = (s_start (r_span x), s_end (r_span x)).
Proof.
  intros [_ H]. unfold view, rview in H. assert (E : node_span n = r_span x) by congruence. unfold node_range, span_range. rewrite E.
  unfold ix_as_usize. destruct (fl_index F); auto. congruence.
Qed.
Lemma shown_first n x : shows n x -> In x (preorder_list l) ->
  match r_kids x with [] => node_first nodes n = None | y :: _ => exists m, node_first nodes n = Some m /\ shows m y /\ In y (preorder_list l) end.
Proof.
  intros [H1 H2] Hx. destruct (in_sibling_lists _ _ Hx) as (p & s1 & s2 & Hs).
  destruct (nav_links t l Hrep p s1 x s2 n Hs H1) as (_ & _ & _ & _ & A). unfold answers in A.
  destruct (r_kids x) as [|y ys] eqn:Ek; simpl in A; destruct (node_first nodes n) as [m|] eqn:E; try discriminate; auto.
  assert (Hy : In y (preorder_list l)) by (apply (preorder_list_kid l x); auto; rewrite Ek; simpl; auto).
  exists m. split; auto. split; auto. split; [|simpl in A; congruence].
  unfold node_first, node_opt in E. destruct (l_first (snd n)) as [i|]; [|discriminate].
  assert (Ei : fst m = i). { unfold node_at in E. destruct (nth_error nodes i); [|discriminate]. injection E as <-. auto. }
  assert (Ev : fst m = r_id y) by (unfold view, rview in A; simpl in A; congruence). rewrite <- Ev, Ei. auto.
Qed.
Lemma shown_children n x : shows n x -> In x (preorder_list l) -> kids_rel (node_children n) (r_kids x).
Proof.
  intros [H1 H2] Hx. apply (children_thm t l Hrep _ (Some x)); [apply kids_sibling_list; auto|]. eapply node_children_is; eauto.
Qed.
Definition weight (xs : list (rose csyntax)) : nat := length (flat_map preorder xs).
Lemma skip_step it xs : kids_rel it xs -> length xs <= length nodes -> Forall (fun x => In x (preorder_list l)) xs ->
  match filter (@has_kids csyntax) xs with
  | [] => exists it', skip_tokens_next nodes it = Ok (it', None)
  | y :: ys => exists it' n post, skip_tokens_next nodes it = Ok (it', Some n) /\ shows n y /\ In y (preorder_list l) /\ kids_rel it' post /\
      filter (@has_kids csyntax) post = ys /\ length post <= length nodes /\ Forall (fun x => In x (preorder_list l)) post /\
      length (preorder y) + weight post <= weight xs
  end.
Proof.
  intros (items & He & Hs) L Hin. unfold skip_tokens_next, skip_next.
  destruct (iter_find_once (total (children_next nodes)) (fun n => has_children n) (S (length nodes)) items it He) as (it' & o & E & Ho).
  { rewrite (F2_length _ _ _ Hs). lia. }
  rewrite E. clear E He.
  assert (G : forall its ys, Forall2 shows its ys -> map (@has_children csyntax) its = map (@has_kids csyntax) ys).
  { induction 1 as [|a b u v [_ H1] H IH]; simpl; auto. rewrite IH. f_equal. apply view_has. auto. }
  assert (G2 : forall its ys, Forall2 shows its ys -> filter (fun n => has_children n) its = [] -> filter (@has_kids csyntax) ys = []).
  { induction 1 as [|a b u v [_ H1] H IH]; simpl; auto. rewrite <- (view_has _ _ H1). destruct (has_children a); [discriminate|auto]. }
  destruct o as [a|].
  - destruct Ho as (pre & post & -> & H1 & H2 & H3). apply Forall2_app_inv_l in Hs as (pre' & post' & S1 & S2 & ->).
    inversion S2 as [|? y ? post'' S3 S4]; subst. rewrite filter_app, (G2 _ _ S1 H1). simpl. rewrite <- (view_has _ _ (proj2 S3)), H2.
    rewrite Forall_app in Hin. destruct Hin as [_ Hin]. inversion Hin; subst.
    exists it', a, post''. repeat split; auto; try apply S3.
    + exists post; auto.
    + rewrite app_length in L. simpl in L. lia.
    + unfold weight. rewrite flat_map_app, app_length. simpl. rewrite app_length. lia.
  - destruct Ho as [H1 _]. rewrite (G2 _ _ Hs H1). eauto.
Qed.
Lemma kids_length x : In x (preorder_list l) -> length (r_kids x) <= length nodes.
Proof.
  intros Hx. rewrite (tr_length _ _ Hrep).
  assert (G : forall w : list (rose csyntax), length w <= length (flat_map preorder w)).
  { induction w as [|y w IH]; simpl; auto. rewrite app_length. destruct y. simpl. lia. }
  assert (K : forall (r y : rose csyntax), In y (preorder r) -> length (r_kids y) <= length (preorder r)).
  { induction r as [id k d sp kids IH] using rose_ind'. intros y Hy. simpl in Hy. destruct Hy as [<-|Hy].
    - simpl. specialize (G kids). lia.
    - apply in_flat_map in Hy as (c & Hc & Hy). eapply Forall_forall in IH; eauto. specialize (IH y Hy).
      apply in_split in Hc as (a & b & ->). simpl. rewrite flat_map_app, app_length. simpl. rewrite app_length. lia. }
  apply in_flat_map in Hx as (r & Hr & Hx). apply K in Hx. apply in_split in Hr as (a & b & ->). unfold preorder_list. rewrite flat_map_app, app_length.
  simpl. rewrite app_length. lia.
Qed.
Lemma kids_in x : In x (preorder_list l) -> Forall (fun x => In x (preorder_list l)) (r_kids x).
Proof. intros H. apply Forall_forall. intros y Hy. eapply preorder_list_kid; eauto. Qed.

Lemma eval_node_S fuel n : eval_node F source nodes (S fuel) n =
    match node_value n with
    | CGroup =>
      match node_first nodes n with
      | Some m => eval_node F source nodes fuel m
      | None => EvErr (node_span n) (EMissing CNumber)
      end
    | CNumber =>
      match str_get source (node_range F n) with
      | Some s => match parse_i64 s with Some z => EvOk z | None => EvErr (node_span n) EBadNumber end
      | None => EvPanic
      end
    | COperation =>
      match skip_tokens_next nodes (node_children n) with
      | Ok (it, Some first) =>
        match eval_node F source nodes fuel first with
        | EvOk base => eval_ops F source nodes fuel n it base
        | r => r
        end
      | Ok (_, None) => EvErr (node_span n) (EMissing CNumber)
      | _ => EvDiverge
      end
    | what => EvErr (node_span n) (EExpected CNumber what)
    end.
Proof. reflexivity. Qed.
Lemma eval_ops_S fuel n it base : eval_ops F source nodes (S fuel) n it base =
    match skip_tokens_next nodes it with
    | Ok (it, Some op) =>
      match node_first nodes op with
      | None => EvErr (node_span n) EExpectedOperator
      | Some op =>
        match calculate (node_value op) with
        | None => EvErr (node_span n) (EUnexpectedOperator (node_value op))
        | Some (f, error) =>
          match skip_tokens_next nodes it with
          | Ok (it, Some first) =>
            match eval_node F source nodes fuel first with
            | EvOk b =>
              match f base b with
              | Some base => eval_ops F source nodes fuel n it base
              | None => EvErr (span_join (node_span op) (node_span n)) error
              end
            | r => r
            end
          | Ok (_, None) => EvErr (node_span n) (EMissing CNumber)
          | _ => EvDiverge
          end
        end
      end
    | Ok (_, None) => EvOk base
    | _ => EvDiverge
    end.
Proof. reflexivity. Qed.

Lemma shown_value n x : shows n x -> node_value n = r_data x /\ node_span n = r_span x.
Proof. intros [_ H]. unfold view, rview in H. split; congruence. Qed.

(** An operation: its first operand, its operators. *)
Lemma filter_head xs y ys : map erase (filter (@has_kids csyntax) xs) = y :: ys -> exists x rest, filter (@has_kids csyntax) xs = x :: rest /\ erase x = y /\ map erase rest = ys.
Proof. destruct (filter _ xs) as [|x rest]; [discriminate|]. intros E. injection E as <- <-. eauto. Qed.

Lemma link :
  (forall s r, sevals source s r -> forall x n, erase x = s -> In x (preorder_list l) -> shows n x -> forall fuel, length (preorder x) <= fuel ->
     eval_node F source nodes fuel n = r) /\
  (forall sp ns r, oevals source sp ns r -> forall xs it n, map erase (filter (@has_kids csyntax) xs) = ns -> kids_rel it xs -> length xs <= length nodes ->
     Forall (fun x => In x (preorder_list l)) xs -> node_span n = sp -> forall fuel, weight xs <= fuel ->
     match skip_tokens_next nodes it with
     | Ok (it, Some first) => match eval_node F source nodes fuel first with EvOk base => eval_ops F source nodes fuel n it base | r => r end
     | Ok (_, None) => EvErr (node_span n) (EMissing CNumber)
     | _ => EvDiverge
     end = r) /\
  (forall sp base ns r, sops source sp base ns r -> forall xs it n, map erase (filter (@has_kids csyntax) xs) = ns -> kids_rel it xs -> length xs <= length nodes ->
     Forall (fun x => In x (preorder_list l)) xs -> node_span n = sp -> forall fuel, 1 + weight xs <= fuel ->
     eval_ops F source nodes fuel n it base = r).
Proof.
  assert (Pos : forall x : rose csyntax, 1 <= length (preorder x)) by (intros []; simpl; lia).
  assert (Sub : forall x : rose csyntax, length (preorder x) = S (weight (r_kids x))) by (intros []; reflexivity).
  apply evals_ind.
  - intros s Hd Hk x n <- Hx Hn fuel Hf. destruct fuel as [|fuel]; [specialize (Pos x); lia|]. rewrite eval_node_S. destruct (shown_value n x Hn) as [-> ->].
    rewrite erase_data in Hd. rewrite Hd. pose proof (shown_first n x Hn Hx) as G. rewrite erase_kids in Hk. destruct (r_kids x); [|discriminate]. rewrite G, erase_span. auto.
  - intros s k ks r Hd Hk Hs IH x n <- Hx Hn fuel Hf. destruct fuel as [|fuel]; [specialize (Pos x); lia|]. rewrite eval_node_S. destruct (shown_value n x Hn) as [-> ->].
    rewrite erase_data in Hd. rewrite Hd. pose proof (shown_first n x Hn Hx) as G. rewrite erase_kids in Hk. rewrite Sub in Hf.
    destruct (r_kids x) as [|y ys]; [discriminate|]. simpl in Hk. injection Hk as E _.
    destruct G as (m & -> & G1 & G2). apply (IH y); auto. unfold weight in Hf. simpl in Hf. rewrite app_length in Hf. lia.
  - intros s d z Hd Hg Hp x n <- Hx Hn fuel Hf. destruct fuel as [|fuel]; [specialize (Pos x); lia|]. rewrite eval_node_S, (shown_range n x Hn). destruct (shown_value n x Hn) as [-> ->].
    rewrite erase_data in Hd. rewrite erase_span in Hg. rewrite Hd, Hg, Hp. auto.
  - intros s d Hd Hg Hp x n <- Hx Hn fuel Hf. destruct fuel as [|fuel]; [specialize (Pos x); lia|]. rewrite eval_node_S, (shown_range n x Hn). destruct (shown_value n x Hn) as [-> ->].
    rewrite erase_data in Hd. rewrite erase_span in *. rewrite Hd, Hg, Hp. auto.
  - intros s r Hd Ho IH x n <- Hx Hn fuel Hf. destruct fuel as [|fuel]; [specialize (Pos x); lia|]. rewrite eval_node_S. destruct (shown_value n x Hn) as [-> Es].
    rewrite erase_data in Hd. rewrite Hd. rewrite Sub in Hf. apply (IH (r_kids x)); auto.
    + rewrite erase_kids, filter_erase. auto.
    + apply shown_children; auto.
    + apply kids_length; auto.
    + apply kids_in; auto.
    + rewrite erase_span. auto.
    + lia.
  - intros s H1 H2 H3 x n <- Hx Hn fuel Hf. destruct fuel as [|fuel]; [specialize (Pos x); lia|]. rewrite eval_node_S. destruct (shown_value n x Hn) as [-> ->].
    rewrite erase_span, erase_data in *. destruct (r_data x); congruence.
  - intros sp xs it n E Hk Hl Hi Hs fuel Hf. pose proof (skip_step it xs Hk Hl Hi) as G. destruct (filter _ xs); [|discriminate]. destruct G as (it' & ->). rewrite Hs. auto.
  - intros sp y ys r Hy IH [sp' [k ->]] xs it n E Hk Hl Hi Hs fuel Hf. destruct (filter_head _ _ _ E) as (x & rest & E1 & E2 & E3).
    pose proof (skip_step it xs Hk Hl Hi) as G. rewrite E1 in G. destruct G as (it' & m & post & -> & G1 & G2 & G3 & G4 & G5 & G6 & G7).
    rewrite (IH x m E2 G2 G1) by lia. auto.
  - intros sp y ys base r Hy IH Ho IHo xs it n E Hk Hl Hi Hs fuel Hf. destruct (filter_head _ _ _ E) as (x & rest & E1 & E2 & E3).
    pose proof (skip_step it xs Hk Hl Hi) as G. rewrite E1 in G. destruct G as (it' & m & post & -> & G1 & G2 & G3 & G4 & G5 & G6 & G7).
    rewrite (IH x m E2 G2 G1) by lia. apply (IHo post); auto; try congruence. specialize (Pos x). lia.
  - intros sp base xs it n E Hk Hl Hi Hs fuel Hf. destruct fuel as [|fuel]; [lia|]. rewrite eval_ops_S. pose proof (skip_step it xs Hk Hl Hi) as G.
    destruct (filter _ xs); [|discriminate]. destruct G as (it' & ->). auto.
  - intros sp base o k ks ys Ho Hc xs it n E Hk Hl Hi Hs fuel Hf. destruct fuel as [|fuel]; [lia|]. rewrite eval_ops_S. destruct (filter_head _ _ _ E) as (x & rest & E1 & E2 & E3).
    pose proof (skip_step it xs Hk Hl Hi) as G. rewrite E1 in G. destruct G as (it' & m & post & -> & G1 & G2 & G3 & G4 & G5 & G6 & G7).
    pose proof (shown_first m x G1 G2) as G8. rewrite <- E2, erase_kids in Ho. destruct (r_kids x) as [|y ys']; [discriminate|]. simpl in Ho. injection Ho as Ey _.
    destruct G8 as (m' & -> & G9 & G10). destruct (shown_value _ _ G9) as [-> _]. rewrite <- Ey, erase_data in *. rewrite Hc, Hs. auto.
  - intros sp base o k ks f Ho Hc xs it n E Hk Hl Hi Hs fuel Hf. destruct fuel as [|fuel]; [lia|]. rewrite eval_ops_S. destruct (filter_head _ _ _ E) as (x & rest & E1 & E2 & E3).
    pose proof (skip_step it xs Hk Hl Hi) as G. rewrite E1 in G. destruct G as (it' & m & post & -> & G1 & G2 & G3 & G4 & G5 & G6 & G7).
    pose proof (shown_first m x G1 G2) as G8. rewrite <- E2, erase_kids in Ho. destruct (r_kids x) as [|y ys']; [discriminate|]. simpl in Ho. injection Ho as Ey _.
    destruct G8 as (m' & -> & G9 & G10). destruct (shown_value _ _ G9) as [-> _]. rewrite <- Ey, erase_data in *. rewrite Hc. destruct f as [f e].
    pose proof (skip_step it' post G3 G5 G6) as K. rewrite G4 in K. destruct rest; [|discriminate]. destruct K as (it2 & ->). rewrite Hs. auto.
  - intros sp base o k ks f y' ys r Ho Hc Hy IH [sp' [kk ->]] xs it n E Hk Hl Hi Hs fuel Hf. destruct fuel as [|fuel]; [lia|]. rewrite eval_ops_S. destruct (filter_head _ _ _ E) as (x & rest & E1 & E2 & E3).
    pose proof (skip_step it xs Hk Hl Hi) as G. rewrite E1 in G. destruct G as (it' & m & post & -> & G1 & G2 & G3 & G4 & G5 & G6 & G7).
    pose proof (shown_first m x G1 G2) as G8. rewrite <- E2, erase_kids in Ho. destruct (r_kids x) as [|y ys']; [discriminate|]. simpl in Ho. injection Ho as Ey _.
    destruct G8 as (m' & -> & G9 & G10). destruct (shown_value _ _ G9) as [-> _]. rewrite <- Ey, erase_data in *. rewrite Hc. destruct f as [f e].
    pose proof (skip_step it' post G3 G5 G6) as K. rewrite G4 in K. destruct rest as [|z rest]; [discriminate|]. injection E3 as E3 E4.
    destruct K as (it2 & m2 & post2 & -> & K1 & K2 & K3 & K4 & K5 & K6 & K7). rewrite (IH z m2 E3 K2 K1) by lia. auto.
  - intros sp base o k ks f e y' ys b Ho Hc Hy IH Hb xs it n E Hk Hl Hi Hs fuel Hf. destruct fuel as [|fuel]; [lia|]. rewrite eval_ops_S. destruct (filter_head _ _ _ E) as (x & rest & E1 & E2 & E3).
    pose proof (skip_step it xs Hk Hl Hi) as G. rewrite E1 in G. destruct G as (it' & m & post & -> & G1 & G2 & G3 & G4 & G5 & G6 & G7).
    pose proof (shown_first m x G1 G2) as G8. rewrite <- E2, erase_kids in Ho. destruct (r_kids x) as [|y ys']; [discriminate|]. simpl in Ho. injection Ho as Ey _.
    destruct G8 as (m' & -> & G9 & G10). destruct (shown_value _ _ G9) as [-> Em]. rewrite <- Ey, erase_data, erase_span in *. rewrite Hc.
    pose proof (skip_step it' post G3 G5 G6) as K. rewrite G4 in K. destruct rest as [|z rest]; [discriminate|]. injection E3 as E3 E4.
    destruct K as (it2 & m2 & post2 & -> & K1 & K2 & K3 & K4 & K5 & K6 & K7). rewrite (IH z m2 E3 K2 K1) by lia. rewrite Hb, Hs, Em. auto.
  - intros sp base o k ks f e y' ys b base' r Ho Hc Hy IH Hb Hop IHo xs it n E Hk Hl Hi Hs fuel Hf. destruct fuel as [|fuel]; [lia|]. rewrite eval_ops_S. destruct (filter_head _ _ _ E) as (x & rest & E1 & E2 & E3).
    pose proof (skip_step it xs Hk Hl Hi) as G. rewrite E1 in G. destruct G as (it' & m & post & -> & G1 & G2 & G3 & G4 & G5 & G6 & G7).
    pose proof (shown_first m x G1 G2) as G8. rewrite <- E2, erase_kids in Ho. destruct (r_kids x) as [|y ys']; [discriminate|]. simpl in Ho. injection Ho as Ey _.
    destruct G8 as (m' & -> & G9 & G10). destruct (shown_value _ _ G9) as [-> Em]. rewrite <- Ey, erase_data, ?erase_span in *. rewrite Hc.
    pose proof (skip_step it' post G3 G5 G6) as K. rewrite G4 in K. destruct rest as [|z rest]; [discriminate|]. injection E3 as E3 E4.
    destruct K as (it2 & m2 & post2 & -> & K1 & K2 & K3 & K4 & K5 & K6 & K7). rewrite (IH z m2 E3 K2 K1) by lia. rewrite Hb. apply (IHo post2); auto; try congruence.
    pose proof (Pos x). lia.
Qed.

(** All the results. *)
Lemma eval_loop_link rs : forall xs it, kids_rel it xs -> length xs <= length nodes -> Forall (fun x => In x (preorder_list l)) xs ->
  Forall2 (sevals source) (map erase (filter (@has_kids csyntax) xs)) rs -> forall fuel, length rs < fuel -> eval_loop fuel F source t it = Ok rs.
Proof.
  induction rs as [|r rs IH]; intros xs it Hk Hl Hi H fuel Hf; (destruct fuel as [|fuel]; [lia|]); cbn [eval_loop]; pose proof (skip_step it xs Hk Hl Hi) as G.
  - inversion H as [E|]. destruct (filter _ xs); [|discriminate]. destruct G as (it' & ->). auto.
  - destruct (filter _ xs) as [|x rest]; [inversion H|]. destruct G as (it' & m & post & -> & G1 & G2 & G3 & G4 & G5 & G6 & G7). cbn [bind].
    inversion H as [|? ? ? ? H1 H2]; subst. rewrite (IH post it'); auto; [|simpl in Hf; lia]. cbn [bind].
    rewrite (proj1 link _ _ H1 x m eq_refl G2 G1); auto. unfold eval_fuel. rewrite (tr_length _ _ Hrep).
    apply in_split in G2 as (a & b & G2).
    assert (K : forall (w : list (rose csyntax)) y, In y (flat_map preorder w) -> length (preorder y) <= length (flat_map preorder w)).
    { assert (K0 : forall (q y : rose csyntax), In y (preorder q) -> length (preorder y) <= length (preorder q)).
      { induction q as [id k d sp kids IHq] using rose_ind'. intros y Hy. simpl in Hy. destruct Hy as [<-|Hy]; auto.
        apply in_flat_map in Hy as (c & Hc & Hy). eapply Forall_forall in IHq; eauto. specialize (IHq y Hy).
        apply in_split in Hc as (u & v & ->). simpl. rewrite flat_map_app, app_length. simpl. rewrite app_length. lia. }
      intros w y Hy. apply in_flat_map in Hy as (c & Hc & Hy). apply K0 in Hy. apply in_split in Hc as (u & v & ->). rewrite flat_map_app, app_length. simpl. rewrite app_length. lia. }
    assert (Hx : In x (flat_map preorder l)) by (fold (preorder_list l); rewrite G2; apply in_app_iff; simpl; auto).
    apply K in Hx. fold (preorder_list l) in Hx. lia.
Qed.
Lemma eval_link rs : Forall2 (sevals source) (filter sh_node (map erase l)) rs -> calc_eval F source t = Ok rs.
Proof.
  intros H. unfold calc_eval. rewrite filter_erase in H.
  assert (L : length l <= length nodes).
  { rewrite (tr_length _ _ Hrep). unfold preorder_list. clear. induction l as [|y w IH]; simpl; auto. rewrite app_length. destruct y. simpl. lia. }
  apply (eval_loop_link rs l); auto.
  - apply (children_thm t l Hrep _ None); [left; auto|]. apply tree_children_is; auto.
  - apply Forall_forall. intros x Hx. apply preorder_list_top. auto.
  - apply F2_length in H. rewrite map_length in H. pose proof (filter_le (@has_kids csyntax) l). lia.
Qed.
End Link.
