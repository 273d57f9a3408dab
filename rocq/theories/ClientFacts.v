(** Client programs as structured programs. *)
From Coq Require Import Lia.
From Verif Require Import Base Index Tree Builder Hist Print Spec SpecEq SpecProgram Text ClientMath.

Section Does.
Context {T : Type}.
Variable F : flavor.
Implicit Types (w : world T) (p q : prog T).

Fixpoint seq p q : prog T :=
  match p with
  | PDone => q
  | PTok d len k => PTok d len (seq k q)
  | PNode d b k => PNode d b (seq k q)
  | PMark b k => PMark b (seq k q)
  | PWrap d k => PWrap d (seq k q)
  end.
Lemma marks_seq p q : marks (seq p q) = marks p + marks q.
Proof. induction p; simpl; lia. Qed.
Lemma calls_seq q c p : forall n, program_calls n c (seq p q) = program_calls n c p ++ program_calls (n + marks p) c q.
Proof.
  induction p as [|d len k IHk|d b IHb k IHk|b IHb k IHk|d k IHk]; intros n; simpl.
  - rewrite Nat.add_0_r. auto.
  - rewrite IHk. auto.
  - rewrite IHk, <- app_assoc, Nat.add_assoc. auto.
  - rewrite IHk, <- app_assoc. do 3 f_equal. f_equal. lia.
  - rewrite IHk. auto.
Qed.
Lemma trees_seq p q : forall acc, program_trees acc (seq p q) = program_trees (program_trees acc p) q.
Proof. induction p; intros acc; simpl; auto. Qed.
Lemma scoped_seq m p q : scoped m (seq p q) <-> scoped m p /\ scoped m q.
Proof. induction p; simpl; try tauto. Qed.
Lemma scoped_mono p : scoped false p -> scoped true p.
Proof. induction p as [|d len k IHk|d b IHb k IHk|b IHb k IHk|d k IHk]; simpl; try tauto. Qed.
Lemma calls_any p : scoped false p -> forall n c c', program_calls n c p = program_calls n c' p.
Proof.
  induction p as [|d len k IHk|d b IHb k IHk|b IHb k IHk|d k IHk]; simpl; intros H n c c'; auto.
  - f_equal. auto.
  - destruct H as [H1 H2]. f_equal. rewrite (IHb H1 n c c'), (IHk H2 (n + marks b) c c'). auto.
  - destruct H as [H1 H2]. f_equal. f_equal. auto.
  - destruct H; discriminate.
Qed.
Lemma trees_any p : scoped false p -> forall acc, program_trees acc p = acc ++ program_trees [] p.
Proof.
  induction p as [|d len k IHk|d b IHb k IHk|b IHb k IHk|d k IHk]; simpl; intros H acc.
  - rewrite app_nil_r. auto.
  - rewrite IHk, (IHk H [GTok d len]) by auto. rewrite <- app_assoc. auto.
  - destruct H as [H1 H2]. rewrite IHk, (IHk H2 [GNode d _]) by auto. rewrite <- app_assoc. auto.
  - destruct H as [H1 H2]. rewrite IHk, (IHk H2 (program_trees [] b)) by auto. rewrite <- app_assoc. auto.
  - destruct H; discriminate.
Qed.

(** ** Running. *)
Lemma bind_ext {A B} (r : result A) (k k' : A -> result B) : (forall a, k a = k' a) -> bind r k = bind r k'.
Proof. destruct r; simpl; auto. Qed.
Lemma bind_bind {A B C} (r : result A) (k : A -> result B) (k' : B -> result C) :
  bind (bind r k) k' = bind r (fun a => bind (k a) k').
Proof. destruct r; auto. Qed.
Lemma call_run o w : call F o w = run_try F w [o].
Proof. unfold call. simpl. destruct (step F w o) as [w' []]; auto. Qed.
Lemma run_try_cons o ops w : run_try F w (o :: ops) = bind (call F o w) (fun w => run_try F w ops).
Proof. unfold call. simpl. destruct (step F w o) as [w' []]; auto. Qed.
Lemma run_try_app ops1 ops2 : forall w, run_try F w (ops1 ++ ops2) = bind (run_try F w ops1) (fun w => run_try F w ops2).
Proof.
  induction ops1 as [|o ops IH]; intros w; simpl; auto.
  destruct (step F w o) as [w' []]; simpl; auto.
Qed.

Definition env_cost (o : op T) : nat := match o with OCheckpoint => 1 | _ => 0 end.
Lemma call_env o w w' : call F o w = Ok w' -> length (w_env w') = length (w_env w) + env_cost o.
Proof.
  unfold call, step. destruct o; cbn [env_cost]; rewrite ?Nat.add_0_r;
    [destruct (open F d (w_builder w)) as [? []] | destruct (open_with F d sp (w_builder w)) as [? []]
    | destruct (close (w_builder w)) as [? []] | destruct (token F d len (w_builder w)) as [? []]
    | destruct (token_empty F d (w_builder w)) as [? []] | destruct (token_with F d sp (w_builder w)) as [? []]
    | destruct (checkpoint F (w_heap w) (w_builder w)) as [[? ?] []]
    | destruct (nth_error (w_env w) k); [destruct (close_at F n d (w_heap w) (w_builder w)) as [[? ?] []]|]
    | destruct (nth_error (w_env w) k); [destruct (close_at_with F n d sp (w_heap w) (w_builder w)) as [[? ?] []]|]
    | idtac]; cbn [out_node out_unit];
    intros E; try discriminate; injection E as <-; cbn [w_env]; rewrite ?app_length; auto.
Qed.
Fixpoint env_costs (ops : list (op T)) : nat := match ops with [] => 0 | o :: ops => env_cost o + env_costs ops end.
Lemma env_costs_app a b : env_costs (a ++ b) = env_costs a + env_costs b.
Proof. induction a; simpl; lia. Qed.
Lemma run_try_env ops : forall w w', run_try F w ops = Ok w' -> length (w_env w') = length (w_env w) + env_costs ops.
Proof.
  induction ops as [|o ops IH]; intros w w' E. { simpl in E. injection E as <-. simpl. lia. }
  rewrite run_try_cons in E. destruct (call F o w) as [w1| |] eqn:Ec; try discriminate. simpl in E.
  rewrite (IH _ _ E), (call_env _ _ _ Ec). simpl. lia.
Qed.
Lemma calls_env p : forall n c, env_costs (program_calls n c p) = marks p.
Proof.
  induction p as [|d len k IHk|d b IHb k IHk|b IHb k IHk|d k IHk]; intros n c; simpl; auto.
  - rewrite env_costs_app. simpl. rewrite IHb, IHk. auto.
  - rewrite env_costs_app. rewrite IHb, IHk. auto.
Qed.

(** A client that runs the program [q] inside the checkpoint [c] and goes on with [k]. *)
Definition does {A} w q (c : nat) (k : world T -> result A) : result A :=
  bind (run_try F w (program_calls (length (w_env w)) c q)) k.

Lemma does_ext {A} w q c (k k' : world T -> result A) : (forall w, k w = k' w) -> does w q c k = does w q c k'.
Proof. apply bind_ext. Qed.
Lemma does_bind {A B} w q c (k : world T -> result A) (k' : A -> result B) :
  bind (does w q c k) k' = does w q c (fun w => bind (k w) k').
Proof. apply bind_bind. Qed.
Lemma does_done {A} w c (k : world T -> result A) : does w PDone c k = k w.
Proof. reflexivity. Qed.
Lemma does_any {A} w q c c' (k : world T -> result A) : scoped false q -> does w q c k = does w q c' k.
Proof. intros H. unfold does. rewrite (calls_any q H _ c c'). auto. Qed.
Lemma does_seq {A} w p q c (k : world T -> result A) : does w (seq p q) c k = does w p c (fun w => does w q c k).
Proof.
  unfold does. rewrite calls_seq, run_try_app, bind_bind.
  destruct (run_try F w (program_calls (length (w_env w)) c p)) as [w'| |] eqn:E; simpl; auto.
  rewrite (run_try_env _ _ _ E), calls_env. auto.
Qed.
Lemma does_tok {A} w d len c (k : world T -> result A) : does w (PTok d len PDone) c k = bind (call F (OToken d len) w) k.
Proof. unfold does. cbn [program_calls]. rewrite call_run. auto. Qed.
Lemma does_wrap {A} w d c (k : world T -> result A) : does w (PWrap d PDone) c k = bind (call F (OCloseAt c d) w) k.
Proof. unfold does. cbn [program_calls]. rewrite call_run. auto. Qed.
Lemma does_node {A} w d b c (k : world T -> result A) :
  does w (PNode d b PDone) c k = bind (call F (OOpen d) w) (fun w => does w b c (fun w => bind (call F OClose w) k)).
Proof.
  unfold does. cbn [program_calls]. rewrite run_try_cons, bind_bind.
  destruct (call F (OOpen d) w) as [w1| |] eqn:E; simpl; auto.
  pose proof (call_env _ _ _ E) as He. simpl in He. rewrite Nat.add_0_r in He. rewrite run_try_app, bind_bind, He.
  apply bind_ext. intros w2. rewrite call_run. auto.
Qed.
Lemma does_mark {A} w b c (k : world T -> result A) :
  does w (PMark b PDone) c k = bind (call_checkpoint F w) (fun '(w, c) => does w b c k).
Proof.
  unfold does, call_checkpoint. cbn [program_calls]. rewrite run_try_cons, !bind_bind.
  destruct (call F OCheckpoint w) as [w1| |] eqn:E; simpl; auto.
  pose proof (call_env _ _ _ E) as He. simpl in He. rewrite He, Nat.add_1_r, app_nil_r. auto.
Qed.

(** A few tokens in a row. *)
Definition toks (l : list (T * N)) : prog T := fold_right (fun t k => PTok (fst t) (snd t) k) PDone l.
Lemma scoped_toks m l : scoped m (toks l).
Proof. induction l; simpl; auto. Qed.
Lemma trees_toks l : forall acc, program_trees acc (toks l) = acc ++ map (fun t => GTok (fst t) (snd t)) l.
Proof.
  induction l as [|t l IH]; intros acc; simpl. { rewrite app_nil_r; auto. } rewrite IH, <- app_assoc. auto.
Qed.
Lemma does_toks_cons {A} w t l c (k : world T -> result A) :
  does w (toks (t :: l)) c k = bind (call F (OToken (fst t) (snd t)) w) (fun w => does w (toks l) c k).
Proof.
  change (toks (t :: l)) with (seq (PTok (fst t) (snd t) PDone) (toks l)). rewrite does_seq, does_tok. auto.
Qed.
End Does.
