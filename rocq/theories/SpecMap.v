(** Specification: changing the values of a history, a document or a tree, and nothing else. *)
From Verif Require Import Base Index Tree Builder Hist Node Iter Spec.

(** The same call, but for the value passed. *)
Inductive same_call {T U} : op T -> op U -> Prop :=
| sc_open d e : same_call (OOpen d) (OOpen e)
| sc_open_with d e sp : same_call (OOpenWith d sp) (OOpenWith e sp)
| sc_close : same_call OClose OClose
| sc_token d e len : same_call (OToken d len) (OToken e len)
| sc_token_empty d e : same_call (OTokenEmpty d) (OTokenEmpty e)
| sc_token_with d e sp : same_call (OTokenWith d sp) (OTokenWith e sp)
| sc_checkpoint : same_call OCheckpoint OCheckpoint
| sc_close_at k d e : same_call (OCloseAt k d) (OCloseAt k e)
| sc_close_at_with k d e sp : same_call (OCloseAtWith k d sp) (OCloseAtWith k e sp)
| sc_set_cursor i : same_call (OSetCursor i) (OSetCursor i).

(** A history with all values passed through [f]. *)
Definition op_map {T U} (f : T -> U) (o : op T) : op U :=
  match o with
  | OOpen d => OOpen (f d)
  | OOpenWith d sp => OOpenWith (f d) sp
  | OClose => OClose
  | OToken d len => OToken (f d) len
  | OTokenEmpty d => OTokenEmpty (f d)
  | OTokenWith d sp => OTokenWith (f d) sp
  | OCheckpoint => OCheckpoint
  | OCloseAt k d => OCloseAt k (f d)
  | OCloseAtWith k d sp => OCloseAtWith k (f d) sp
  | OSetCursor i => OSetCursor i
  end.

(** A document with the value [d] of each node [i] changed to [g i d]. *)
Fixpoint relabel {T U} (g : nat -> T -> U) (x : rose T) : rose U :=
  match x with Nd i k d sp kids => Nd i k (g i d) sp (map (relabel g) kids) end.

(** Setting the value of node [i]. *)
Definition set_value {T} (i : nat) (v : T) : rose T -> rose T :=
  relabel (fun j d => if Nat.eqb j i then v else d).

(** What a caller sees of two nodes is the same, but for the value. *)
Definition same_but_value {T U} (n : node T) (m : node U) : Prop :=
  fst n = fst m /\ node_span n = node_span m /\ has_children n = has_children m /\
  l_parent (snd n) = l_parent (snd m) /\ l_prev (snd n) = l_prev (snd m) /\ l_next (snd n) = l_next (snd m) /\
  l_first (snd n) = l_first (snd m) /\ l_last (snd n) = l_last (snd m).
