(** A concrete history used to show that hypotheses can be met.  Tests, not
    proofs: everything here is computed. *)
From Verif Require Import Base Pointer Index Tree Builder Hist Node Iter Spec.

(** root(10) { a:3 11(b:2 12{} ) c:0 } with a checkpoint around b and 12; and
    failing calls in between. *)
Definition demo_ops : list (op nat) :=
  [ OClose;                       (* refused *)
    OOpen 10;
    OToken 1 3;
    OCheckpoint;
    OToken 2 2;
    OOpen 12;
    OCloseAt 0 99;                (* refused: other level *)
    OClose;
    OCloseAt 0 11;
    OTokenEmpty 3;
    OClose;
    OTokenWith 4 (Span 5 9) ].

Definition demo_doc : list (rose nat) :=
  [ Nd 0 KOpen 10 (Span 0 5)
      [ Nd 1 KLeaf 1 (Span 0 3) [];
        Nd 4 KWrap 11 (Span 3 5) [ Nd 2 KLeaf 2 (Span 3 5) []; Nd 3 KOpen 12 (Span 5 5) [] ];
        Nd 5 KLeaf 3 (Span 5 5) [] ];
    Nd 6 KLeaf 4 (Span 5 9) [] ].

Definition demo_tree : tree nat :=
  match build (w_builder (run_world flavor_default demo_ops)) with
  | Ok t => t
  | _ => tree_new
  end.

Example demo_finished : finished flavor_default demo_ops demo_tree demo_doc.
Proof.
  split; [|split; [|split]].
  - split; auto.
  - unfold document, describes.
    destruct (a_run flavor_default doc_new demo_ops) as [[a rs]|] eqn:E; [|vm_compute in E; discriminate].
    exists a, rs. split; auto. vm_compute in E. injection E as <- <-. vm_compute. auto.
  - vm_compute. reflexivity.
  - vm_compute. reflexivity.
Qed.

(** The second node from the front of the wrapped part, in its surroundings. *)
Example demo_siblings :
  In (Some (Nd 4 KWrap 11 (Span 3 5) [ Nd 2 KLeaf 2 (Span 3 5) []; Nd 3 KOpen 12 (Span 5 5) [] ]),
      [Nd 2 KLeaf 2 (Span 3 5) []] ++ Nd 3 KOpen 12 (Span 5 5) [] :: []) (sibling_lists demo_doc).
Proof. vm_compute. tauto. Qed.
