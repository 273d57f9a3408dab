(** The examples in the documentation of the crate (doctests), its integration tests and its small
    example programs, run on the model.  Each says which lines of /repo it transcribes.  These are tests
    of the model's fidelity, not proofs of properties. *)
From Verif Require Import Base Pointer Index Tree Builder Hist Node Iter Query Edit Print Render Mix Text.
From Verif Require ClientCalc ClientSynth.
From Coq Require Import String.
Import ListNotations.
Local Open Scope list_scope.
Local Open Scope string_scope.

Local Notation T := string.
Local Notation D := flavor_default.

(** [syntree::flavor!] with the items the examples give; the others default (src/flavor.rs 78-109). *)
Definition flavor_empty : flavor := Flavor usize_max_64 IxEmpty Usize SVec SEmptyVec.
Definition flavor_empty_u32 : flavor := Flavor usize_max_64 IxEmpty U32 SVec SEmptyVec.
Definition flavor_u8 : flavor := Flavor usize_max_64 IxU32 U8 SVec SVec.
Definition flavor_usize_u16 : flavor := Flavor usize_max_64 IxUsize U16 SVec SVec.
Definition flavor_usize_u32 : flavor := Flavor usize_max_64 IxUsize U32 SVec SVec.

(** A program whose calls all end in [?], then [build()?]. *)
Definition built (F : flavor) (ops : list (op T)) : result (tree T) :=
  match run_try F world_new ops with
  | Ok w => build (w_builder w)
  | Err e => Err e
  | Diverge => Diverge
  end.
(** [assert_eq!(tree, tree! { .. })]. *)
Definition equal (F G : flavor) (a b : result (tree T)) : bool :=
  match a, b with
  | Ok a, Ok b => match tree_eq F G String.eqb a b with Ok true => true | _ => false end
  | _, _ => false
  end.
Definition builds (ops : list (op T)) (ls : list (lit T)) : bool := equal D D (built D ops) (tree_macro D ls).

Definition the (r : result (tree T)) : tree T := match r with Ok t => t | _ => tree_new end.
Definition tr (ls : list (lit T)) : tree T := the (tree_macro D ls).

Definition nodes_of (t : tree T) := t_nodes t.
Definition bind {A B} (o : option A) (f : A -> option B) : option B :=
  match o with Some a => f a | None => None end.
Local Notation "o >> f" := (bind o f) (at level 50, left associativity).
Definition val (n : node T) : option T := Some (node_value n).
Definition vals {S} (r : result (S * list (node T))) : option (list T) :=
  match r with Ok (_, l) => Some (map (@node_value T) l) | _ => None end.
Definition dvals {S A} (r : result (S * list (A * node T))) : option (list (A * T)) :=
  match r with Ok (_, l) => Some (map (fun x => (fst x, node_value (snd x))) l) | _ => None end.

Definition kids (t : tree T) (c : children_it) := vals (iter_collect (S (tree_len t)) (total (children_next (t_nodes t))) c).
Definition kids_rev (t : tree T) (c : children_it) := vals (iter_collect (S (tree_len t)) (total (children_next_back (t_nodes t))) c).
Definition sibs (t : tree T) (c : siblings_it T) := vals (iter_collect (S (tree_len t)) (total (siblings_next (t_nodes t))) c).
Definition ancs (t : tree T) (c : ancestors_it T) := vals (iter_collect (S (tree_len t)) (total (ancestors_next (t_nodes t))) c).
Definition skips {S} (t : tree T) (nxt : S -> result (S * option (node T))) (s : S) :=
  vals (iter_collect (Datatypes.S (tree_len t)) (skip_next (loop_fuel (t_nodes t)) nxt) s).
Definition walks (t : tree T) w := vals (iter_collect (S (tree_len t)) (walk_next D (t_nodes t)) w).
Definition depths (t : tree T) w := dvals (iter_collect (S (tree_len t)) (walk_depths_next D (t_nodes t)) w).
Definition insides (t : tree T) w := vals (iter_collect (S (tree_len t)) (inside_next D (t_nodes t)) w).
Definition events (t : tree T) w := dvals (iter_collect (S (2 * tree_len t)) (total (walk_events_next D (t_nodes t))) w).

Definition range_val (t : tree T) s e :=
  match node_with_range D std_search t s e with Ok (Some n) => val n | _ => None end.
Definition span_val (t : tree T) s e :=
  match node_with_span std_search t (Span s e) with Ok (Some n) => val n | _ => None end.
Definition first (t : tree T) (n : node T) := node_first (t_nodes t) n.
Definition last (t : tree T) (n : node T) := node_last (t_nodes t) n.
Definition next (t : tree T) (n : node T) := node_next (t_nodes t) n.
Definition prev (t : tree T) (n : node T) := node_prev (t_nodes t) n.
Definition parent (t : tree T) (n : node T) := node_parent (t_nodes t) n.

Local Open Scope N_scope.

(** ** src/builder.rs *)
(** lines 31-52 *)
Example builder_31 :
  builds [OOpen "root"; OOpen "child"; OClose; OOpen "child"; OClose; OClose]
    [LNode "root" [LNode "child" []; LNode "child" []]] = true.
Proof. vm_compute. reflexivity. Qed.

(** lines 83-107 *)
Definition ops_83 (len : N) : list (op T) :=
  [OOpen "root"; OOpen "child"; OToken "token" len; OClose; OOpen "child2"; OClose; OClose].
Example builder_83 :
  builds (ops_83 5) [LNode "root" [LNode "child" [LTok "token" 5]; LNode "child2" []]] = true.
Proof. vm_compute. reflexivity. Qed.

(** lines 129-164 *)
Example builder_129 :
  equal flavor_empty_u32 flavor_empty_u32 (built flavor_empty_u32 (ops_83 0))
    (tree_macro flavor_empty_u32 [LNode "root" [LNode "child" [LEmpty "token"]; LNode "child2" []]]) = true.
Proof. vm_compute. reflexivity. Qed.

(** lines 186-210 and 220-244: the cursor after each call *)
Fixpoint cursors (w : world T) (ops : list (op T)) : list N :=
  cursor (w_builder w) ::
  match ops with
  | [] => []
  | o :: ops => cursors (fst (step D w o)) ops
  end.
Definition ops_186 : list (op T) := [OOpen "child"; OToken "lit" 4; OClose].
Example builder_186 :
  cursors world_new ops_186 = [0; 0; 4; 4] /\
  builds ops_186 [LNode "child" [LTok "lit" 4]] = true.
Proof. vm_compute. auto. Qed.

(** lines 260-272 and 345-357 *)
Example builder_260 :
  run_outs D [OOpen "root"; OOpen "child"; OClose; OOpen "child"; OClose; OClose]
  = [RNode 0%nat; RNode 1%nat; RUnit; RNode 2%nat; RUnit; RUnit].
Proof. vm_compute. reflexivity. Qed.

(** lines 296-320 *)
Example builder_296 :
  builds [OOpen "root"; OOpenWith "child" (Span 0 3); OClose; OOpenWith "child" (Span 3 6); OClose; OClose]
    [LNodeSpan "root" (Span 0 6)
       [LNodeSpan "child" (Span 0 3) []; LNodeSpan "child" (Span 3 6) []]] = true.
Proof. vm_compute. reflexivity. Qed.

(** lines 394-409 *)
Example builder_394 : builds ops_186 [LNode "child" [LTok "lit" 4]] = true.
Proof. vm_compute. reflexivity. Qed.

(** lines 441-461 *)
Example builder_441 :
  builds [OOpenWith "child" (Span 0 10); OTokenWith "lit" (Span 2 4); OTokenWith "lit2" (Span 4 6); OClose]
    [LNodeSpan "child" (Span 0 10) [LTokSpan "lit" (Span 2 4); LTokSpan "lit2" (Span 4 6)]] = true.
Proof. vm_compute. reflexivity. Qed.

(** lines 466-489 *)
Example builder_466 :
  builds [OOpen "child"; OTokenWith "lit" (Span 2 4); OTokenWith "lit2" (Span 4 6); OToken "lit3" 6; OClose]
    [LNodeSpan "child" (Span 0 6)
       [LTokSpan "lit" (Span 2 4); LTokSpan "lit2" (Span 4 6); LTokSpan "lit3" (Span 6 12)]] = true.
Proof. vm_compute. reflexivity. Qed.

(** lines 522-541 *)
Example builder_522 :
  builds [OOpen "child"; OTokenEmpty "lit"; OClose] [LNode "child" [LEmpty "lit"]] = true.
Proof. vm_compute. reflexivity. Qed.

(** lines 556-583: a checkpoint of another builder *)
Example builder_556 :
  match mix_run D mix_new
    [MNew; MNew; MCall 1 OCheckpoint; MCall 0 (OOpen "child"); MCall 0 OClose;
     MCall 1 (OOpen "child"); MCall 1 OClose; MCall 0 (OCloseAt 0 "root")] with
  | (m, outs) =>
      outs = [RUnit; RUnit; RCheckpoint; RNode 0%nat; RUnit; RNode 0%nat; RUnit; RNode 1%nat] /\
      match nth_error (m_builders m) 0 with
      | Some a => equal D D (build a) (tree_macro D [LNode "root" [LEmpty "child"]]) = true
      | None => False
      end
  end.
Proof. vm_compute. auto. Qed.

(** lines 595-617 *)
Example builder_595 :
  builds [OCheckpoint; OOpen "child"; OToken "lit" 3; OClose; OCloseAt 0 "root"]
    [LNode "root" [LNode "child" [LTok "lit" 3]]] = true.
Proof. vm_compute. reflexivity. Qed.

(** lines 643-660 *)
Example builder_643 :
  builds [OCheckpoint; OToken "lit" 3; OCloseAt 0 "root"] [LNode "root" [LTok "lit" 3]] = true.
Proof. vm_compute. reflexivity. Qed.

(** lines 664-697 *)
Example builder_664 :
  builds [OCheckpoint; OOpen "number"; OToken "lit" 3; OClose; OToken "whitespace" 1;
          OOpen "number"; OToken "lit" 2; OClose; OCloseAt 0 "root"]
    [LNode "root" [LNode "number" [LTok "lit" 3]; LTok "whitespace" 1; LNode "number" [LTok "lit" 2]]] = true.
Proof. vm_compute. reflexivity. Qed.

(** lines 701-739; also src/tree.rs lines 388-405 and examples/checkpoint.rs lines 4-34 *)
Definition ops_701 : list (op T) :=
  [OCheckpoint; OOpen "child"; OToken "lit" 3; OClose; OCloseAt 0 "root"; OToken "sibling" 3].
Definition tree_701 : tree T := the (built D ops_701).
Example builder_701 :
  range_val tree_701 0 3 = Some "child" /\
  (let lit := tree_first tree_701 >> first tree_701 >> first tree_701 in
   lit >> val = Some "lit" /\
   (lit >> fun n => ancs tree_701 (node_ancestors n)) = Some ["lit"; "child"; "root"]) /\
  (tree_first tree_701 >> val) = Some "root" /\
  (tree_first tree_701 >> parent tree_701) = None /\
  builds ops_701 [LNode "root" [LNode "child" [LTok "lit" 3]]; LTok "sibling" 3] = true.
Proof. vm_compute. repeat split; reflexivity. Qed.

(** lines 823-841 *)
Example builder_823 :
  (tree_first (the (built D [OCheckpoint; OTokenWith "lit" (Span 1 3); OCloseAtWith 0 "custom" (Span 0 6);
                             OTokenWith "lit2" (Span 6 8)]))
   >> fun n => Some (node_value n, node_span n)) = Some ("custom", Span 0 6).
Proof. vm_compute. reflexivity. Qed.

(** lines 927-947 *)
Example builder_927 :
  builds [OOpen "child"; OToken "number" 3; OClose; OOpen "child"; OClose]
    [LNode "child" [LTok "number" 3]; LNode "child" []] = true.
Proof. vm_compute. reflexivity. Qed.

(** lines 951-966; also src/error.rs lines 31-45 *)
Example builder_951 : built D [OOpen "number"; OToken "lit" 3; OClose; OOpen "number"] = Err BuildError.
Proof. vm_compute. reflexivity. Qed.

(** ** src/error.rs *)
(** lines 13-24 *)
Example error_13 : run_outs D [OOpen "root"; OClose; OClose] = [RNode 0%nat; RUnit; RErr CloseError].
Proof. vm_compute. reflexivity. Qed.

(** lines 52-64 *)
Example error_52 :
  run_outs D [OCheckpoint; OOpen "child"; OToken "token" 3; OCloseAt 0 "operation"]
  = [RCheckpoint; RNode 0%nat; RNode 1%nat; RErr CloseAtError].
Proof. vm_compute. reflexivity. Qed.

(** lines 77-95: 255 tokens of a [u8] flavor, then one more *)
Example error_77 :
  run_outs flavor_u8 (map (fun d => OToken d 1) (seq 0 255) ++ [OToken 255%nat 1])
  = (map RNode (seq 0 255) ++ [RErr Overflow])%list.
Proof. vm_compute. reflexivity. Qed.

(** lines 104-117 *)
Example error_104 :
  snd (mix_run D mix_new [MNew; MNew; MCall 1 (OOpen "child"); MCall 1 OClose; MCall 1 OCheckpoint;
                          MCall 0 (OCloseAt 0 "operation")])
  = [RUnit; RUnit; RNode 0%nat; RUnit; RCheckpoint; RErr (MissingNode 0)].
Proof. vm_compute. reflexivity. Qed.

(** ** src/edit.rs *)
(** lines 31-68, 108-131, 150-173 *)
Definition tree_31 : tree T :=
  tr [LNode "root" [LNode "child" [LTok "lit" 1; LTok "lit" 2]; LTok "whitespace" 3]].
Definition removed (t : tree T) (o : option (node T)) : result (tree T) :=
  match o with
  | Some n => modify (2 * tree_len t + 2) D (changeset_remove (node_id D n) changeset_new) t
  | None => Diverge
  end.
Example edit_31 :
  equal D D (removed tree_31 (tree_first tree_31 >> first tree_31))
    (tree_macro D [LNode "root" [LTok "whitespace" 3]]) = true /\
  equal D D (removed tree_31 (tree_first tree_31 >> first tree_31 >> first tree_31))
    (tree_macro D [LNode "root" [LNode "child" [LTok "lit" 2]; LTok "whitespace" 3]]) = true.
Proof. vm_compute. auto. Qed.

(** ** src/lib.rs *)
(** lines 86-130 *)
Definition ops_86 : list (op T) :=
  [OOpen "Number"; OToken "Lit" 1; OToken "Lit" 3; OOpen "Nested"; OToken "Lit" 1; OClose; OClose].
Example lib_86 :
  builds ops_86 [LNode "Number" [LTok "Lit" 1; LTok "Lit" 3; LNode "Nested" [LTok "Lit" 1]]] = true /\
  (tree_first (the (built D ops_86)) >> fun n => Some (node_span n)) = Some (Span 0 5).
Proof. vm_compute. auto. Qed.

(** lines 143-181: trees of two flavors are compared *)
Example lib_143 :
  equal flavor_usize_u16 flavor_usize_u32 (built flavor_usize_u16 (ops_83 100))
    (tree_macro flavor_usize_u32 [LNode "root" [LNode "child" [LTok "token" 100]; LNode "child2" []]]) = true /\
  t_span (the (built flavor_usize_u16 (ops_83 100))) = Span 0 100.
Proof. vm_compute. auto. Qed.

(** lines 187-222 *)
Example lib_187 :
  equal flavor_empty flavor_empty (built flavor_empty (ops_83 0))
    (tree_macro flavor_empty [LNode "root" [LNode "child" [LEmpty "token"]; LNode "child2" []]]) = true /\
  span_is_empty (t_span (the (built flavor_empty (ops_83 0)))) = true.
Proof. vm_compute. auto. Qed.

(** ** src/macros.rs *)
(** lines 5-48 *)
Example macros_5 :
  builds [OOpen "Root"; OOpen "Number"; OToken "Lit" 1; OClose; OToken "Whitespace" 3;
          OOpen "Number"; OToken "Lit" 2; OTokenEmpty "Lit"; OClose; OClose]
    [LNode "Root" [LNode "Number" [LTok "Lit" 1]; LTok "Whitespace" 3;
                   LNode "Number" [LTok "Lit" 2; LEmpty "Lit"]]] = true.
Proof. vm_compute. reflexivity. Qed.

(** lines 117-147 *)
Example macros_117 :
  equal flavor_empty flavor_empty
    (tree_macro flavor_empty [LNode "root" [LNode "child" [LEmpty "token"]; LEmpty "child2"]])
    (tree_macro flavor_empty [LNode "root" [LNode "child" [LTok "token" 0]; LEmpty "child2"]]) = true.
Proof. vm_compute. reflexivity. Qed.

(** ** src/node/ancestors.rs *)
(** lines 13-24: [unwrap_or_default] *)
Definition tree_13 := tr [LNode "root" [LNode "child1" []; LNode "child3" []]].
Example ancestors_13 :
  ancs tree_13 (match tree_first tree_13 >> first tree_13 >> first tree_13 with
                | Some n => node_ancestors n | None => None end) = Some [].
Proof. vm_compute. reflexivity. Qed.

(** lines 30-49 *)
Definition tree_30 := tr [LNode "root" [LNode "child1" [LNode "child2" []]; LNode "child3" []]].
Example ancestors_30 :
  (tree_first tree_30 >> first tree_30 >> first tree_30 >> fun n => ancs tree_30 (node_ancestors n))
  = Some ["child2"; "child1"; "root"].
Proof. vm_compute. reflexivity. Qed.

(** lines 83-111: [next_node] *)
Definition tree_83 := tr [LNode "root" [LNode "child" [LTok "lit" 3]]].
Example ancestors_83 :
  (tree_first tree_83 >> first tree_83 >> first tree_83 >> fun n =>
   skips tree_83 (total (ancestors_next (t_nodes tree_83))) (node_ancestors n)) = Some ["child"; "root"].
Proof. vm_compute. reflexivity. Qed.

(** ** src/node/children.rs *)
(** lines 15-33 *)
Definition tree_15 :=
  tr [LNode "root" [LNode "child1" [LNode "child2" [LEmpty "token1"]]; LNode "child3" []]].
Example children_15 :
  (tree_first tree_15 >> last tree_15 >> fun n => kids tree_15 (node_children n)) = Some [] /\
  kids tree_15 children_default = Some [].
Proof. vm_compute. auto. Qed.

(** lines 36-70 *)
Definition tree_36 :=
  tr [LNode "root" [LNode "child1" [LNode "child2" []]; LNode "child3" []]; LNode "root2" [LNode "child4" []]].
Example children_36 :
  kids tree_36 (tree_children tree_36) = Some ["root"; "root2"] /\
  kids_rev tree_36 (tree_children tree_36) = Some ["root2"; "root"] /\
  (tree_first tree_36 >> fun n => kids tree_36 (node_children n)) = Some ["child1"; "child3"] /\
  (tree_first tree_36 >> fun n => kids_rev tree_36 (node_children n)) = Some ["child3"; "child1"].
Proof. vm_compute. auto. Qed.

(** lines 111-145; src/node/siblings.rs lines 105-141; src/node/skip_tokens.rs lines 17-41 *)
Definition tree_111 :=
  tr [LTok "token1" 1; LNode "child1" [LEmpty "token2"]; LTok "token3" 1; LNode "child2" [LEmpty "token4"];
      LTok "token5" 1; LNode "child3" [LEmpty "token6"]; LTok "token7" 1].
Example children_111 :
  skips tree_111 (total (children_next (t_nodes tree_111))) (tree_children tree_111)
  = Some ["child1"; "child2"; "child3"].
Proof. vm_compute. reflexivity. Qed.
Example siblings_105 :
  (tree_first tree_111 >> fun n =>
   skips tree_111 (total (siblings_next (t_nodes tree_111))) (node_siblings n))
  = Some ["child1"; "child2"; "child3"].
Proof. vm_compute. reflexivity. Qed.

(** ** src/node/siblings.rs, lines 15-35 and 38-63 *)
Definition tree_s15 :=
  tr [LNode "root" [LNode "child1" [LNode "child2" [LEmpty "token1"]]; LNode "child3" [LEmpty "token2"]]].
Example siblings_15 :
  sibs tree_s15 (match tree_first tree_s15 >> next tree_s15 with
                 | Some n => node_siblings n | None => None end) = Some [].
Proof. vm_compute. reflexivity. Qed.
Definition tree_s38 :=
  tr [LNode "root" [LNode "child1" [LNode "child2" [LEmpty "token1"]]; LNode "child3" [LEmpty "token2"]];
      LNode "root2" [LNode "child4" [LEmpty "token3"]]].
Example siblings_38 :
  (tree_first tree_s38 >> fun n => sibs tree_s38 (node_siblings n)) = Some ["root"; "root2"].
Proof. vm_compute. reflexivity. Qed.

(** ** src/node/skip_tokens.rs, lines 45-67 *)
Definition tree_45 :=
  tr [LNode "child1" [LNode "child2" [LEmpty "token1"]; LTok "token2" 1; LNode "child3" [LEmpty "token3"]];
      LNode "child4" [LTok "token4" 1]].
Example skip_tokens_45 :
  skips tree_45 (walk_next D (t_nodes tree_45)) (tree_walk tree_45)
  = Some ["child1"; "child2"; "child3"; "child4"].
Proof. vm_compute. reflexivity. Qed.

(** ** src/node/node_impl.rs *)
(** lines 49-66 and 76-97 *)
Definition tree_49 := tr [LNode "root" [LTok "number" 5; LTok "ident" 3]].
Example node_49 :
  (tree_first tree_49 >> val) = Some "root" /\
  (tree_first tree_49 >> first tree_49 >> val) = Some "number" /\
  (tree_first tree_49 >> first tree_49 >> next tree_49 >> val) = Some "ident".
Proof. vm_compute. auto. Qed.
Example node_76 :
  match tree_first tree_49 >> first tree_49 with
  | Some n =>
      let '(t, old) := tree_replace tree_49 n "other" in
      old = "number" /\
      (tree_get t (node_id D n) >> val) = Some "other" /\
      (tree_get t (node_id D n) >> next t >> val) = Some "ident"
  | None => False
  end.
Proof. vm_compute. auto. Qed.

(** lines 106-119 *)
Example node_106 :
  (tree_first tree_49 >> fun n => Some (has_children n)) = Some true /\
  match tree_first tree_49 with
  | Some n =>
      match iter_collect (S (tree_len tree_49)) (total (children_next (t_nodes tree_49))) (node_children n) with
      | Ok (_, l) => forallb (fun m => negb (has_children m)) l = true
      | _ => False
      end
  | None => False
  end.
Proof. vm_compute. auto. Qed.

(** lines 129-152 and 530-553; src/tree.rs lines 79-98 and 308-327 *)
Definition tree_129 :=
  tr [LNode "root" [LNode "number" [LTok "lit" 5]; LNode "ident" [LTok "lit" 3]]; LNode "root2" [LTok "whitespace" 5]].
Example node_129 :
  (tree_first tree_129 >> fun n => Some (node_span n)) = Some (Span 0 8) /\
  (tree_first tree_129 >> next tree_129 >> fun n => Some (node_span n)) = Some (Span 8 13) /\
  (tree_first tree_129 >> fun n => Some (node_range D n)) = Some (0, 8) /\
  (tree_first tree_129 >> next tree_129 >> fun n => Some (node_range D n)) = Some (8, 13) /\
  t_span tree_129 = Span 0 13 /\
  tree_range D tree_129 = (0, 13).
Proof. vm_compute. repeat split; reflexivity. Qed.

(** lines 163-178 *)
Definition tree_163 := tr [LEmpty "root"; LNode "root2" [LTok "token2" 5]].
Example node_163 :
  (tree_first tree_163 >> fun n => Some (node_is_empty n)) = Some true /\
  (tree_first tree_163 >> next tree_163 >> fun n => Some (node_is_empty n)) = Some false.
Proof. vm_compute. auto. Qed.

(** lines 245-271, 280-303, 312-334, 343-365, 374-396; src/tree.rs lines 276-303 *)
Example node_245 :
  (tree_first tree_129 >> val) = Some "root" /\
  (tree_first tree_129 >> parent tree_129) = None /\
  (tree_first tree_129 >> first tree_129 >> val) = Some "number" /\
  (tree_first tree_129 >> first tree_129 >> parent tree_129 >> val) = Some "root" /\
  (tree_first tree_129 >> first tree_129 >> prev tree_129) = None /\
  (tree_first tree_129 >> first tree_129 >> next tree_129 >> val) = Some "ident" /\
  (tree_first tree_129 >> first tree_129 >> next tree_129 >> prev tree_129 >> val) = Some "number" /\
  (tree_last tree_129 >> val) = Some "root2" /\
  (tree_last tree_129 >> last tree_129 >> val) = Some "whitespace" /\
  (tree_first tree_129 >> last tree_129 >> val) = Some "ident" /\
  (tree_first tree_129 >> last tree_129 >> fun n => tree_get tree_129 (node_id D n) >> val) = Some "ident".
Proof. vm_compute. repeat split; reflexivity. Qed.

(** lines 410-437 *)
Definition tree_410 :=
  tr [LNode "root" [LNode "child1" [LTok "token2" 1; LNode "child2" [LTok "token1" 2]];
                    LNode "child3" [LNode "child4" [LTok "token1" 4]]]].
Example node_410 :
  match node_with_range D std_search tree_410 3 3 with
  | Ok (Some n) =>
      node_value n = "child4" /\
      match find_preceding (t_nodes tree_410)
              (fun m => (s_end (node_span m) =? 3) && has_children m)%bool n with
      | Ok (Some m) => node_value m = "child2"
      | _ => False
      end
  | _ => False
  end.
Proof. vm_compute. auto. Qed.

(** lines 485-508 *)
Example node_485 :
  let ops := [OOpen "root"; OOpen "child"; OClose; OOpen "child2"; OClose; OClose] in
  let t := the (built D ops) in
  run_outs D ops = [RNode 0; RNode 1; RUnit; RNode 2; RUnit; RUnit]%nat /\
  (tree_first t >> fun n => Some (node_id D n)) = Some 0%nat /\
  (tree_first t >> first t >> fun n => Some (node_id D n)) = Some 1%nat /\
  (tree_first t >> first t >> next t >> fun n => Some (node_id D n)) = Some 2%nat.
Proof. vm_compute. auto. Qed.

(** ** src/node/walk.rs *)
(** lines 15-76 *)
Definition tree_w15 :=
  tr [LNode "root" [LNode "c1" [LNode "c2" []; LNode "c3" []; LNode "c4" []]; LNode "c5" [];
                    LNode "c6" [LNode "c7" []]]].
Example walk_15 :
  let t := tree_w15 in
  let root := tree_first t in let c1 := root >> first t in let c4 := c1 >> last t in let c5 := c1 >> next t in
  walks t (tree_walk t) = Some ["root"; "c1"; "c2"; "c3"; "c4"; "c5"; "c6"; "c7"] /\
  (root >> fun n => walks t (node_walk D n)) = Some ["root"; "c1"; "c2"; "c3"; "c4"; "c5"; "c6"; "c7"] /\
  (c1 >> fun n => walks t (node_walk D n)) = Some ["c1"; "c2"; "c3"; "c4"; "c5"; "c6"; "c7"] /\
  (c1 >> fun n => walks t (node_walk_from D n)) = Some ["c5"; "c6"; "c7"] /\
  (c4 >> fun n => walks t (node_walk D n)) = Some ["c4"; "c5"; "c6"; "c7"] /\
  (c4 >> fun n => walks t (node_walk_from D n)) = Some ["c5"; "c6"; "c7"] /\
  (c5 >> fun n => walks t (node_walk D n)) = Some ["c5"; "c6"; "c7"] /\
  (c5 >> fun n => walks t (node_walk_from D n)) = Some ["c6"; "c7"].
Proof. vm_compute. repeat split; reflexivity. Qed.

(** lines 114-142 and 390-418 *)
Definition tree_w114 :=
  tr [LNode "n1" [LNode "n3" [LNode "n4" []; LNode "n5" []]]; LNode "n6" [LEmpty "n7"]].
Example walk_114 :
  let t := tree_w114 in
  walks t (tree_walk t) = Some ["n1"; "n3"; "n4"; "n5"; "n6"; "n7"] /\
  (tree_first t >> fun n => walks t (node_walk D n)) = Some ["n1"; "n3"; "n4"; "n5"; "n6"; "n7"] /\
  (tree_first t >> fun n => insides t (node_walk D n)) = Some ["n1"; "n3"; "n4"; "n5"] /\
  (tree_first t >> fun n => insides t (node_walk_from D n)) = Some [].
Proof. vm_compute. auto. Qed.

(** lines 154-170 and 191-209 *)
Definition tree_w154 := tr [LNode "root" [LNode "c1" [LNode "c2" []; LNode "c3" []]]].
Example walk_154 :
  depths tree_w154 (tree_walk tree_w154) = Some [(0, "root"); (1, "c1"); (2, "c2"); (2, "c3")]%Z.
Proof. vm_compute. reflexivity. Qed.

(** lines 282-326 *)
Definition tree_w282 :=
  tr [LNode "root" [LNode "c1" [LNode "c2" []; LNode "c3" []; LNode "c4" []]; LNode "c5" []; LNode "c6" []]].
Example walk_282 :
  let l := Some [(0, "root"); (1, "c1"); (2, "c2"); (2, "c3"); (2, "c4"); (1, "c5"); (1, "c6")]%Z in
  depths tree_w282 (tree_walk tree_w282) = l /\
  (tree_first tree_w282 >> fun n => depths tree_w282 (node_walk D n)) = l.
Proof. vm_compute. auto. Qed.

(** ** src/node/walk_events.rs *)
(** lines 30-92 *)
Example walk_events_30 :
  let t := tree_w282 in
  let c1 := [(Down, "c2"); (Next, "c3"); (Next, "c4"); (Up, "c1"); (Next, "c5"); (Next, "c6"); (Up, "root")]%list in
  events t (tree_walk t) = Some ((Next, "root") :: (Down, "c1") :: c1)%list /\
  (tree_first t >> fun n => events t (node_walk D n)) = Some ((Next, "root") :: (Down, "c1") :: c1)%list /\
  (tree_first t >> first t >> fun n => events t (node_walk D n)) = Some ((Next, "c1") :: c1)%list.
Proof. vm_compute. auto. Qed.

(** lines 98-139: the depth counted by the caller *)
Definition count (l : list (event * T)) : Z * list (Z * T) :=
  fold_left (fun (acc : Z * list (Z * T)) (x : event * T) =>
    let '(depth, out) := acc in
    match fst x with
    | Up => ((depth - 1)%Z, out)
    | Down => ((depth + 1)%Z, out ++ [((depth + 1)%Z, snd x)])
    | Next => (depth, out ++ [(depth, snd x)])
    end)%list l (0%Z, []).
Example walk_events_98 :
  (events tree_w154 (tree_walk tree_w154) >> fun l => Some (count l))
  = Some (0, [(0, "root"); (1, "c1"); (2, "c2"); (2, "c3")])%Z.
Proof. vm_compute. reflexivity. Qed.

(** ** src/pointer.rs, lines 21-28, 36-43 and 101-182, every width *)
Example pointer_101 :
  forallb (fun w =>
    let F := Flavor usize_max_64 IxU32 w SVec SVec in
    match ptr_new F 0, ptr_new F 42 with
    | Some a, Some b => (ptr_get F a =? 0) && (ptr_get F b =? 42) && (ptr_get F (ptr_default F) =? 0)
    | _, _ => false
    end)%bool [U8; U16; U32; U64; U128; Usize] = true.
Proof. vm_compute. reflexivity. Qed.
(** lines 59-72 *)
Example pointer_59 :
  let t := tr [LEmpty "root1"; LEmpty "root2"] in
  match tree_first t, tree_last t with
  | Some a, Some b => Nat.eqb (node_id D a) (node_id D b) = false
  | _, _ => False
  end.
Proof. vm_compute. reflexivity. Qed.

(** ** src/span.rs, lines 31-37, 48-52, 65-77, 93-99, 112-119, 138-144, 154-160 *)
Example span_31 :
  span_point 4 = Span 4 4 /\
  span_join (Span 4 8) (Span 5 9) = Span 4 9 /\ span_join (Span 5 9) (Span 4 8) = Span 4 9 /\
  span_is_empty (Span 0 0) = true /\ span_is_empty (Span 0 10) = false /\
  span_contains (Span 2 2) 2 = false /\ span_contains (Span 2 3) 2 = true /\ span_contains (Span 2 3) 3 = false /\
  span_range D (Span 4 8) = (4, 8) /\
  span_len D (Span 0 0) = 0 /\ span_len D (Span 0 10) = 10.
Proof. vm_compute. repeat split; reflexivity. Qed.

(** ** src/tree.rs *)
(** lines 112-131, 140-147, 204-215, 223-234.  Capacity (154-175) is not modelled. *)
Example tree_112 :
  tree_len (the (built D [])) = 0%nat /\ tree_is_empty (the (built D [])) = true /\
  tree_len (tr [LNode "root" [LNode "child" [LTok "token" 2]; LTok "whitespace" 1; LNode "child2" []]]) = 5%nat.
Proof. vm_compute. auto. Qed.
Example tree_204 :
  let t := tr [LNode "root" []; LNode "root2" []] in
  (tree_first t >> val) = Some "root" /\ (tree_last t >> val) = Some "root2".
Proof. vm_compute. auto. Qed.

(** lines 338-383 and 418-463 *)
Definition tree_338 :=
  tr [LNode "root" [LNode "child1" [LTok "token1" 3];
                    LNode "child2" [LNode "nested1" [LTok "token1" 4]; LTok "token4" 1];
                    LNode "child3" [LTok "token5" 5]];
      LNode "root2" []].
Example tree_338_ranges :
  map (fun q => range_val tree_338 (fst q) (snd q))
    [(0, 0); (0, 3); (3, 3); (3, 7); (7, 7); (7, 8); (8, 8); (8, 13); (2, 4)]
  = map Some ["child1"; "child1"; "nested1"; "nested1"; "child2"; "child2"; "child3"; "child3"; "root"].
Proof. vm_compute. reflexivity. Qed.
Example tree_418_spans :
  map (fun q => span_val tree_338 (fst q) (snd q))
    [(0, 0); (0, 3); (3, 3); (3, 7); (7, 7); (7, 8); (8, 8); (8, 13); (2, 4)]
  = map Some ["child1"; "child1"; "nested1"; "nested1"; "child2"; "child2"; "child3"; "child3"; "root"].
Proof. vm_compute. reflexivity. Qed.

(** lines 470-510 *)
Example tree_470 :
  let t := the (built D [OCheckpoint; OOpen "child1"; OToken "lit" 3; OClose; OOpen "child2"; OToken "lit" 2;
                         OClose; OCloseAt 0 "root"]) in
  map (fun q => span_val t (fst q) (snd q)) [(0, 0); (0, 3); (3, 5); (4, 5); (3, 4); (3, 3); (2, 5)]
  = map Some ["child1"; "child1"; "child2"; "child2"; "child2"; "child2"; "root"].
Proof. vm_compute. reflexivity. Qed.

(** ** src/print.rs *)
Definition nl : string := String (Ascii.ascii_of_nat 10) "".
Definition printed (t : tree T) : bytes * ending :=
  print_to D t (fun _ => @None bytes) lit_bytes (fun b => b) None vec_write_all [].
(** [{:?}] of a [&str] without quotes or escapes in it *)
Definition quoted (b : bytes) : bytes := (lit_bytes """" ++ b ++ lit_bytes """")%list.
Definition printed_source (t : tree T) (src : string) : bytes * ending :=
  print_to D t (fun sp => source_get (fun _ => true) (lit_bytes src) (span_range D sp))
    lit_bytes quoted None vec_write_all [].
Definition lines (l : list string) : bytes := lit_bytes (fold_right (fun s r => s ++ nl ++ r) "" l).

(** lines 20-63 and 77-122 *)
Definition tree_p20 :=
  tr [LNode "NUMBER" [LTok "NUMBER" 3]; LTok "WHITESPACE" 1; LNode "OPERATOR" [LTok "PLUS" 1];
      LTok "WHITESPACE" 1; LNode "NUMBER" [LTok "NUMBER" 2]].
Example print_20 :
  printed tree_p20 =
  (lines ["NUMBER@0..3"; "  NUMBER@0..3 +"; "WHITESPACE@3..4 +"; "OPERATOR@4..5"; "  PLUS@4..5 +";
          "WHITESPACE@5..6 +"; "NUMBER@6..8"; "  NUMBER@6..8 +"], Printed).
Proof. vm_compute. reflexivity. Qed.
Example print_77 :
  printed_source tree_p20 "128 + 64" =
  (lines ["NUMBER@0..3"; "  NUMBER@0..3 ""128"""; "WHITESPACE@3..4 "" """; "OPERATOR@4..5"; "  PLUS@4..5 ""+""";
          "WHITESPACE@5..6 "" """; "NUMBER@6..8"; "  NUMBER@6..8 ""64"""], Printed).
Proof. vm_compute. reflexivity. Qed.

(** ** tests/checkpoints.rs *)
(** lines 13-48 *)
Example balanced_checkpoint :
  builds [OCheckpoint; OOpen "Number"; OToken "Lit" 2; OClose; OToken "Whitespace" 3;
          OOpen "Number"; OToken "Lit" 2; OToken "Lit" 2; OClose; OCloseAt 0 "Root"]
    [LNode "Root" [LNode "Number" [LTok "Lit" 2]; LTok "Whitespace" 3;
                   LNode "Number" [LTok "Lit" 2; LTok "Lit" 2]]] = true.
Proof. vm_compute. reflexivity. Qed.
(** lines 51-72 *)
Example test_checkpoint_mutation :
  builds [OCheckpoint; OCheckpoint; OToken "b" 3; OCloseAt 1 "operation"; OCloseAt 0 "operation"]
    [LNode "operation" [LNode "operation" [LTok "b" 3]]] = true.
Proof. vm_compute. reflexivity. Qed.
(** lines 75-98 *)
Example test_nested_checkpoints :
  builds [OCheckpoint; OToken "a" 3; OCheckpoint; OToken "b" 3; OCloseAt 1 "operation"; OCloseAt 0 "operation"]
    [LNode "operation" [LTok "a" 3; LNode "operation" [LTok "b" 3]]] = true.
Proof. vm_compute. reflexivity. Qed.
(** lines 101-124 *)
Example test_nested_checkpoints2 :
  builds [OCheckpoint; OCheckpoint; OToken "b" 3; OCloseAt 1 "operation"; OToken "a" 3; OCloseAt 0 "operation"]
    [LNode "operation" [LNode "operation" [LTok "b" 3]; LTok "a" 3]] = true.
Proof. vm_compute. reflexivity. Qed.
(** lines 127-152 *)
Example test_checkpoints_around_close :
  builds [OOpen "operation"; OToken "b" 3; OCheckpoint; OClose; OCheckpoint; OToken "a" 3; OCloseAt 1 "operation"]
    [LNode "operation" [LTok "b" 3]; LNode "operation" [LTok "a" 3]] = true.
Proof. vm_compute. reflexivity. Qed.

(** ** tests/walk_trees.rs, lines 1-27 and 30-54 *)
Definition flat_insides (t : tree T) (o : option (node T)) : option (list T) :=
  match o with
  | Some n =>
      match iter_collect (S (tree_len t)) (total (children_next (t_nodes t))) (node_children n) with
      | Ok (_, l) =>
          Some (flat_map (fun m => match insides t (node_walk D m) with Some v => v | None => [] end) l)
      | _ => None
      end
  | None => None
  end.
Example walk_trees1 :
  let t := tr [LNode "n1" [LEmpty "n2"; LNode "n3" [LEmpty "n4"]; LEmpty "n5"]; LNode "n6" [LEmpty "n7"]] in
  flat_insides t (tree_first t) = Some ["n2"; "n3"; "n4"; "n5"].
Proof. vm_compute. reflexivity. Qed.
Example walk_trees2 :
  let t := tr [LNode "n1" [LEmpty "n2"; LEmpty "n3"; LEmpty "n5"]; LNode "n6" [LEmpty "n7"]] in
  flat_insides t (tree_first t) = Some ["n2"; "n3"; "n5"].
Proof. vm_compute. reflexivity. Qed.

(** ** examples/iterator.rs, lines 3-28 *)
Example example_iterator :
  let t := the (built D [OOpen "root1"; OOpen "child1"; OClose; OOpen "child2"; OClose; OClose;
                         OOpen "root2"; OClose]) in
  kids t (tree_children t) = Some ["root1"; "root2"].
Proof. vm_compute. reflexivity. Qed.

(** ** examples/change_set.rs, lines 5-29 *)
Example example_change_set :
  let t := tr [LNode "root" [LNode "child" [LTok "lit" 4; LTok "lit" 3]; LTok "whitespace" 4]] in
  match removed t (tree_first t >> first t >> first t) with
  | Ok t' => printed t' = (lines ["root@0..7"; "  child@0..3"; "    lit@0..3 +"; "  whitespace@3..7 +"], Printed)
  | _ => False
  end.
Proof. vm_compute. reflexivity. Qed.

(** ** examples/walk.rs lines 4-34 and examples/walk_events.rs lines 4-35 *)
Definition tree_ex :=
  tr [LNode "root" [LNode "child1" [LNode "nested1" [LTok "token1" 4; LTok "token2" 1; LTok "token3" 5];
                                    LTok "token4" 1; LTok "token5" 5];
                    LNode "child2" []];
      LNode "root2" []].
Example example_walk :
  printed tree_ex =
  (lines ["root@0..16"; "  child1@0..16"; "    nested1@0..10"; "      token1@0..4 +"; "      token2@4..5 +";
          "      token3@5..10 +"; "    token4@10..11 +"; "    token5@11..16 +"; "  child2@16..16 +";
          "root2@16..16 +"], Printed) /\
  (tree_first tree_ex >> fun n => walks tree_ex (node_walk D n))
  = Some ["root"; "child1"; "nested1"; "token1"; "token2"; "token3"; "token4"; "token5"; "child2"; "root2"].
Proof. vm_compute. auto. Qed.
Example example_walk_events :
  events tree_ex (tree_walk tree_ex)
  = Some [(Next, "root"); (Down, "child1"); (Down, "nested1"); (Down, "token1"); (Next, "token2");
          (Next, "token3"); (Up, "nested1"); (Next, "token4"); (Next, "token5"); (Up, "child1");
          (Next, "child2"); (Up, "root"); (Next, "root2")].
Proof. vm_compute. reflexivity. Qed.

(** ** src/lib.rs lines 41-62: the tree of the calculator (examples/calculator) for "256 / 2 + 64 * 2" *)
Definition chars (s : string) : str := lit_bytes s.
Definition calc_debug (s : ClientCalc.csyntax) : bytes :=
  lit_bytes match s with
            | ClientCalc.CNumber => "Number" | ClientCalc.CPlus => "Plus" | ClientCalc.CMinus => "Minus"
            | ClientCalc.CDiv => "Div" | ClientCalc.CMul => "Mul" | ClientCalc.CPow => "Pow"
            | ClientCalc.CWhitespace => "Whitespace" | ClientCalc.COperator => "Operator"
            | ClientCalc.COpenParen => "OpenParen" | ClientCalc.CCloseParen => "CloseParen"
            | ClientCalc.COperation => "Operation" | ClientCalc.CGroup => "Group"
            | ClientCalc.CEof => "Eof" | ClientCalc.CError => "Error"
            end.
Definition calc_printed (src : string) : bytes :=
  match ClientCalc.calc_tree (chars src) D with
  | Ok t => fst (print_to D t (fun sp => source_get (fun _ => true) (lit_bytes src) (span_range D sp))
                   calc_debug quoted None vec_write_all [])
  | _ => []
  end.
Example lib_41 :
  calc_printed "256 / 2 + 64 * 2" =
  lines ["Operation@0..16"; "  Number@0..3"; "    Number@0..3 ""256"""; "  Whitespace@3..4 "" """;
         "  Operator@4..5"; "    Div@4..5 ""/"""; "  Whitespace@5..6 "" """; "  Number@6..7";
         "    Number@6..7 ""2"""; "  Whitespace@7..8 "" """; "  Operator@8..9"; "    Plus@8..9 ""+""";
         "  Whitespace@9..10 "" """; "  Operation@10..16"; "    Number@10..12"; "      Number@10..12 ""64""";
         "    Whitespace@12..13 "" """; "    Operator@13..14"; "      Mul@13..14 ""*""";
         "    Whitespace@14..15 "" """; "    Number@15..16"; "      Number@15..16 ""2"""].
Proof. vm_compute. reflexivity. Qed.

(** ** src/lib.rs lines 266-282: the output of examples/synthetic_strings.rs for "Hello $world".  The
    documentation prints [Lit]; the program's variant is [Literal] (line 15). *)
Definition synth_debug (s : ClientSynth.ysyntax) : bytes :=
  match s with
  | ClientSynth.YSynthetic id => (lit_bytes "Synthetic(" ++ decimal (N.of_nat id) ++ lit_bytes ")")%list
  | ClientSynth.YLiteral => lit_bytes "Lit"
  | ClientSynth.YWhitespace => lit_bytes "Whitespace"
  | ClientSynth.YError => lit_bytes "Error"
  end.
Example lib_266 :
  let src := "Hello $world" in
  match ClientSynth.y_program D (chars src)
          (ClientSynth.y_insert ClientSynth.ystore_new (chars "world") (chars "Earth")) with
  | ClientSynth.Done (t, ls) =>
      fst (print_to D t (fun sp => source_get (fun _ => true) (lit_bytes src) (span_range D sp))
             synth_debug quoted None vec_write_all [])
      = lines ["Lit@0..5 ""Hello"""; "Whitespace@5..6 "" """; "Synthetic(0)@6..12 ""$world"""] /\
      ls = [ClientSynth.YValue 0 (chars "Hello"); ClientSynth.YValue 1 (chars "Earth")]
  | _ => False
  end.
Proof. vm_compute. auto. Qed.
