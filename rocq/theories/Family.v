(** Any number of builders, made with [new] or by cloning one another, each used with the checkpoints
    that it or the builders it was cloned from gave out.  No proofs. *)
Set Implicit Arguments.
From Verif Require Import Base Pointer Index Tree Builder Hist Mix.

(** [FNew]: src/builder.rs lines 112-114 and 168-178.  [FClone i]: lines 1024-1032; a [Checkpoint] is an [Rc]
    (src/builder/checkpoint.rs lines 12-15), so the checkpoints taken before the clone are at hand for both afterwards.
    [FCall i o]: a call on builder [i]; [RNoHandle] if there is none. *)
Inductive fam_op (T : Type) := FNew | FClone (i : nat) | FCall (i : nat) (o : op T).
Arguments FNew {T}. Arguments FClone {T} _. Arguments FCall {T} _ _.

Definition fam_step {T} (F : flavor) (s : shop T) (o : fam_op T) : shop T * out :=
  match o with
  | FNew => (Shop (sh_heap s) (sh_builders s ++ [(builder_new, [])]), RUnit)
  | FClone i =>
      match nth_error (sh_builders s) i with
      | None => (s, RNoHandle)
      | Some (b, env) => (Shop (sh_heap s) (sh_builders s ++ [(builder_clone b, env)]), RUnit)
      end
  | FCall i o =>
      match nth_error (sh_builders s) i with
      | None => (s, RNoHandle)
      | Some (b, env) =>
          let '(w, r) := step F (World (sh_heap s) b env) o in
          (Shop (w_heap w) (upd (sh_builders s) i (fun _ => (w_builder w, w_env w))), r)
      end
  end.

Fixpoint fam_run {T} (F : flavor) (s : shop T) (ops : list (fam_op T)) : shop T * list out :=
  match ops with
  | [] => (s, [])
  | o :: ops =>
      let '(s, r) := fam_step F s o in
      let '(s, rs) := fam_run F s ops in
      (s, r :: rs)
  end.
