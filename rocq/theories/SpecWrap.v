(** Specification: a block of calls made between opening and closing a node, or between taking and
    closing a checkpoint. *)
From Verif Require Import Base Index Tree Builder Hist Node Iter Spec SpecEq SpecMarks.

(** Plain calls (no explicit spans) in which every [close] has its [open] and every [open] its
    [close]; [n] nodes of the block are open. *)
Fixpoint balanced {T} (n : nat) (ops : list (op T)) : Prop :=
  match ops with
  | [] => n = 0
  | OOpen _ :: ops => balanced (S n) ops
  | OClose :: ops => match n with O => False | S n => balanced n ops end
  | (OToken _ _ | OTokenEmpty _ | OCheckpoint | OCloseAt _ _) :: ops => balanced n ops
  | _ => False
  end.

(** The innermost open node, if any, does not start after the cursor. *)
Definition starts_before {T} (a : doc T) : Prop :=
  match a_open a with [] => True | f :: _ => (s_start (f_span f) <= a_cursor a)%N end.

(** The calls use no checkpoint from [j] up to, not including, [j + m]. *)
Definition avoids {T} (j m : nat) (ops : list (op T)) : Prop :=
  forall o k, In o ops -> closes_at k o -> k < j \/ j + m <= k.

(** Names of checkpoints when there is one more, which is the [j]-th. *)
Definition one_more (j k : nat) : nat := if Nat.ltb k j then k else S k.

(** The same result, where identifiers are one higher. *)
Definition id_before (r : out) : out := match r with RNode i => RNode (S i) | r => r end.

(** The same document under construction, the identifiers and origins of finished nodes aside. *)
Definition same_frame {T} (f g : frame T) : Prop :=
  f_id f = f_id g /\ f_data f = f_data g /\ f_span f = f_span g /\ map erase (f_left f) = map erase (f_left g).
Record same_doc {T} (a b : doc T) : Prop := {
  sd_cur : map erase (a_cur a) = map erase (a_cur b);
  sd_open : Forall2 same_frame (a_open a) (a_open b);
  sd_n : a_n a = a_n b;
  sd_cursor : a_cursor a = a_cursor b;
  sd_span : a_span a = a_span b;
}.
