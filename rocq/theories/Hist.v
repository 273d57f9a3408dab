(** Histories: sequences of public calls on one builder.  No proofs. *)
Set Implicit Arguments.
From Verif Require Import Base Pointer Index Tree Builder.

(** One constructor per public [&mut self] method of [Builder]
    (src/builder.rs).  Checkpoints are first-class values a caller may keep and
    use any number of times, in any order: [k] is the k-th (from 0)
    successful [checkpoint] call of the history. *)
Inductive op (T : Type) :=
| OOpen (d : T)
| OOpenWith (d : T) (sp : span)
| OClose
| OToken (d : T) (len : N)
| OTokenEmpty (d : T)
| OTokenWith (d : T) (sp : span)
| OCheckpoint
| OCloseAt (k : nat) (d : T)
| OCloseAtWith (k : nat) (d : T) (sp : span)
| OSetCursor (i : N).
Arguments OOpen {T} _.
Arguments OOpenWith {T} _ _.
Arguments OClose {T}.
Arguments OToken {T} _ _.
Arguments OTokenEmpty {T} _.
Arguments OTokenWith {T} _ _.
Arguments OCheckpoint {T}.
Arguments OCloseAt {T} _ _.
Arguments OCloseAtWith {T} _ _ _.
Arguments OSetCursor {T} _.

(** What a caller sees of one call. *)
Inductive out :=
| RUnit                   (* Ok(()) *)
| RNode (id : nat)        (* Ok(pointer) *)
| RCheckpoint             (* Ok(checkpoint) *)
| RErr (e : error)
| RDiverge                (* the call does not return *)
| RNoHandle.              (* the history names a checkpoint that was never
                             obtained: no such Rust program; a no-op *)

(** The program state: heap of [Rc] cells, the builder, and the checkpoints
    obtained so far (addresses). *)
Record world (T : Type) := World {
  w_heap : heap;
  w_builder : builder T;
  w_env : list nat;
}.
Arguments w_heap {T} _. Arguments w_builder {T} _. Arguments w_env {T} _.
Arguments World {T} _ _ _.

Definition world_new {T} : world T := World [] builder_new [].

Definition out_node (r : result nat) : out :=
  match r with Ok id => RNode id | Err e => RErr e | Diverge => RDiverge end.
Definition out_unit (r : result unit) : out :=
  match r with Ok _ => RUnit | Err e => RErr e | Diverge => RDiverge end.

Definition step {T} (F : flavor) (w : world T) (o : op T) : world T * out :=
  let h := w_heap w in
  let b := w_builder w in
  let env := w_env w in
  match o with
  | OOpen d => let '(b, r) := open F d b in (World h b env, out_node r)
  | OOpenWith d sp => let '(b, r) := open_with F d sp b in (World h b env, out_node r)
  | OClose => let '(b, r) := close b in (World h b env, out_unit r)
  | OToken d len => let '(b, r) := token F d len b in (World h b env, out_node r)
  | OTokenEmpty d => let '(b, r) := token_empty F d b in (World h b env, out_node r)
  | OTokenWith d sp => let '(b, r) := token_with F d sp b in (World h b env, out_node r)
  | OCheckpoint =>
      let '(h, b, r) := checkpoint F h b in
      match r with
      | Ok a => (World h b (env ++ [a]), RCheckpoint)
      | Err e => (World h b env, RErr e)
      | Diverge => (World h b env, RDiverge)
      end
  | OCloseAt k d =>
      match nth_error env k with
      | None => (w, RNoHandle)
      | Some a => let '(h, b, r) := close_at F a d h b in (World h b env, out_node r)
      end
  | OCloseAtWith k d sp =>
      match nth_error env k with
      | None => (w, RNoHandle)
      | Some a => let '(h, b, r) := close_at_with F a d sp h b in (World h b env, out_node r)
      end
  | OSetCursor i => (World h (set_cursor i b) env, RUnit)
  end.

(** Running a history; the outputs are in order. *)
Fixpoint run {T} (F : flavor) (w : world T) (ops : list (op T)) : world T * list out :=
  match ops with
  | [] => (w, [])
  | o :: ops =>
      let '(w, r) := step F w o in
      let '(w, rs) := run F w ops in
      (w, r :: rs)
  end.

Definition run_world {T} (F : flavor) (ops : list (op T)) : world T :=
  fst (run F world_new ops).
Definition run_outs {T} (F : flavor) (ops : list (op T)) : list out :=
  snd (run F world_new ops).

(** Values a caller can pass: indexes and lengths fit their Rust types. *)
Definition span_wf (F : flavor) (sp : span) : Prop :=
  (s_start sp <= ix_max F)%N /\ (s_end sp <= ix_max F)%N.
Definition op_wf {T} (F : flavor) (o : op T) : Prop :=
  match o with
  | OOpenWith _ sp | OTokenWith _ sp | OCloseAtWith _ _ sp => span_wf F sp
  | OToken _ len => (len <= fl_usize_max F)%N
  | OSetCursor i => (i <= ix_max F)%N
  | _ => True
  end.
