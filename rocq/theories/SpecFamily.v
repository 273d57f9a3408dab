(** Specification: the story of one builder among many, some of them its clones (C36). *)
Set Implicit Arguments.
From Verif Require Import Base Pointer Index Tree Builder Hist Mix Family.

(** The checkpoint that a call is given, by identity; [env] are the checkpoints at hand. *)
Definition given {T} (env : list nat) (o : op T) : option nat :=
  match o with
  | OCloseAt k _ => nth_error env k
  | OCloseAtWith k _ _ => nth_error env k
  | _ => None
  end.

(** All calls that are made, told for builder [i]: whether the call was made on [i], or, before [i] was cloned, on the builder it
    was cloned from (and so on); what it returned; which checkpoint it was given.  The number is the builder that [i] was at the
    beginning. *)
Record deed (T : Type) := Deed { d_own : bool; d_call : op T; d_result : out; d_given : option nat }.
Arguments d_own {T} _. Arguments d_call {T} _. Arguments d_result {T} _. Arguments d_given {T} _. Arguments Deed {T} _ _ _ _.

Fixpoint deeds {T} (F : flavor) (s : shop T) (ops : list (fam_op T)) (i : nat) : nat * list (deed T) :=
  match ops with
  | [] => (i, [])
  | o :: ops =>
      let '(s', r) := fam_step F s o in
      let '(me, ds) := deeds F s' ops i in
      match o with
      | FNew => (me, ds)
      | FClone j =>
          match nth_error (sh_builders s) j with
          | Some _ => (if Nat.eqb me (length (sh_builders s)) then j else me, ds)
          | None => (me, ds)
          end
      | FCall j c =>
          match nth_error (sh_builders s) j with
          | Some (_, env) => (me, Deed (Nat.eqb me j) c r (given env c) :: ds)
          | None => (me, ds)
          end
      end
  end.

(** The calls that made builder [i] what it is, clones included. *)
Definition story {T} (F : flavor) (ops : list (fam_op T)) (i : nat) : list (deed T) :=
  filter d_own (snd (deeds F shop_new ops i)).

(** No checkpoint is given to a call outside the story of builder [i] and later to a call in it. *)
Definition keeps_its_checkpoints {T} (F : flavor) (ops : list (fam_op T)) (i : nat) : Prop :=
  forall before e between d after c, snd (deeds F shop_new ops i) = before ++ e :: between ++ d :: after ->
    d_own e = false -> d_own d = true -> d_given e = Some c -> d_given d <> Some c.
