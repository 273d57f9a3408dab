(** Specification of checkpoints, in terms of the calls of a history and what they returned. *)
Set Implicit Arguments.
From Verif Require Import Base Index Tree Builder Hist Spec.

(** The nodes that are open after the calls, innermost first, from the open nodes [st] before. *)
Fixpoint open_nodes {T} (st : list nat) (ops : list (op T)) (rs : list out) : list nat :=
  match ops, rs with
  | OOpen _ :: ops, RNode id :: rs => open_nodes (id :: st) ops rs
  | OOpenWith _ _ :: ops, RNode id :: rs => open_nodes (id :: st) ops rs
  | OClose :: ops, RUnit :: rs => open_nodes (tl st) ops rs
  | _ :: ops, _ :: rs => open_nodes st ops rs
  | _, _ => st
  end.

(** For every checkpoint obtained, in order, the node that was open then ([None]: no node was). *)
Fixpoint taken_in {T} (st : list nat) (ops : list (op T)) (rs : list out) : list (option nat) :=
  match ops, rs with
  | OOpen _ :: ops, RNode id :: rs => taken_in (id :: st) ops rs
  | OOpenWith _ _ :: ops, RNode id :: rs => taken_in (id :: st) ops rs
  | OClose :: ops, RUnit :: rs => taken_in (tl st) ops rs
  | OCheckpoint :: ops, RCheckpoint :: rs => hd_error st :: taken_in st ops rs
  | _ :: ops, _ :: rs => taken_in st ops rs
  | _, _ => []
  end.

(** A [close_at] or [close_at_with] call on the [k]-th checkpoint. *)
Definition closes_at {T} (k : nat) (o : op T) : Prop :=
  match o with OCloseAt j _ => j = k | OCloseAtWith j _ _ => j = k | _ => False end.

(** ** Extra checkpoints *)

(** A history some of whose [checkpoint] calls are marked as extra: their result is never used. *)
Inductive noted (T : Type) := Kept (o : op T) | Extra.
Arguments Kept {T} _. Arguments Extra {T}.

(** The history without the extra calls. *)
Fixpoint without_extra {T} (l : list (noted T)) : list (op T) :=
  match l with
  | [] => []
  | Kept o :: l => o :: without_extra l
  | Extra :: l => without_extra l
  end.

(** The same call, with the checkpoints it uses named by [f]. *)
Definition rename {T} (f : nat -> nat) (o : op T) : op T :=
  match o with
  | OCloseAt k d => OCloseAt (f k) d
  | OCloseAtWith k d sp => OCloseAtWith (f k) d sp
  | _ => o
  end.

(** The history with the extra calls.  Checkpoints are named by their number among all
    [checkpoint] calls of the history, so the names change: [names] holds the new name of every kept
    [checkpoint] call so far, and [n] such calls were made altogether. *)
Fixpoint with_extra {T} (names : list nat) (n : nat) (l : list (noted T)) : list (op T) :=
  match l with
  | [] => []
  | Extra :: l => OCheckpoint :: with_extra names (S n) l
  | Kept OCheckpoint :: l => OCheckpoint :: with_extra (names ++ [n]) (S n) l
  | Kept o :: l => rename (fun k => nth k names (n + k)) o :: with_extra names n l
  end.

(** The results of the kept calls. *)
Fixpoint kept_results {T} (l : list (noted T)) (rs : list out) : list out :=
  match l, rs with
  | Kept _ :: l, r :: rs => r :: kept_results l rs
  | Extra :: l, _ :: rs => kept_results l rs
  | _, _ => []
  end.

(** ** Using checkpoints *)

(** How many checkpoints were obtained. *)
Definition obtained (rs : list out) : nat :=
  length (filter (fun r => match r with RCheckpoint => true | _ => false end) rs).

(** Between two moments of a history nothing was added, opened or closed. *)
Fixpoint standstill {T} (ops : list (op T)) (rs : list out) : Prop :=
  match ops, rs with
  | [], [] => True
  | _ :: _, RNode _ :: _ => False
  | OClose :: _, RUnit :: _ => False
  | _ :: ops, _ :: rs => standstill ops rs
  | _, _ => False
  end.

(** The same call, but where the one uses checkpoint [i] or [j] the other may use either. *)
Definition either (i j : nat) (k k' : nat) : Prop :=
  k = k' \/ (k = i \/ k = j) /\ (k' = i \/ k' = j).
Inductive swapped {T} (i j : nat) : op T -> op T -> Prop :=
| sw_same o : swapped i j o o
| sw_close k k' d : either i j k k' -> swapped i j (OCloseAt k d) (OCloseAt k' d)
| sw_close_with k k' d sp : either i j k k' -> swapped i j (OCloseAtWith k d sp) (OCloseAtWith k' d sp).

(** The calls use no checkpoint obtained before the [j]-th. *)
Definition since {T} (j : nat) (ops : list (op T)) : Prop :=
  forall o k, In o ops -> closes_at k o -> j <= k.
