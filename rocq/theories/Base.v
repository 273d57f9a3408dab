(** Common data of the model: results, errors, array update, flavors.
    No proofs in this file. *)
From Coq Require Export List Arith NArith ZArith Bool.
Export ListNotations.
Set Implicit Arguments.

(** src/error.rs lines 7-123, [enum Error<E>].  The payload of
    [Error::Flavor(E)] is not modelled (the storages below have a single
    failure). *)
Inductive error : Type :=
| CloseError                (* line 25 *)
| BuildError                (* line 46 *)
| CloseAtError              (* line 65 *)
| Overflow                  (* line 96 *)
| MissingNode (id : nat)    (* line 118 *)
| FlavorError.              (* line 122 *)

(** [Result<A, Error>], plus [Diverge]: the value of a model loop that ran out
    of fuel, standing for a Rust loop that does not end. *)
Inductive result (A : Type) : Type :=
| Ok (a : A)
| Err (e : error)
| Diverge.
Arguments Ok {A} _.
Arguments Err {A} _.
Arguments Diverge {A}.

(** [if let Some(x) = slice.get_mut(i) { *x = f(x) }]. *)
Fixpoint upd {A} (l : list A) (i : nat) (f : A -> A) : list A :=
  match l, i with
  | [], _ => []
  | x :: l', O => f x :: l'
  | x :: l', S i' => x :: upd l' i' f
  end.

Definition opt_nat_eqb (a b : option nat) : bool :=
  match a, b with
  | Some x, Some y => Nat.eqb x y
  | None, None => true
  | _, _ => false
  end.

(** ** Flavors: src/flavor.rs lines 133-148 *)

(** The primitive types implementing [Width], src/pointer.rs lines 200-205. *)
Inductive int_ty := U8 | U16 | U32 | U64 | U128 | Usize.

(** The types implementing [Index]: src/index.rs lines 66-126 and
    src/empty.rs lines 31-60. *)
Inductive index_ty := IxU32 | IxUsize | IxEmpty.

(** Implementations of [Storage]: [Vec] (src/flavor.rs lines 30-50; pushing
    never fails, allocation failure aborts and is not modelled), [EmptyVec]
    (src/empty.rs lines 87-106; pushing succeeds and stores nothing) and, to
    cover user implementations whose [push] returns an error, a storage of fixed
    capacity. *)
Inductive storage := SVec | SEmptyVec | SBounded (cap : nat).

Record flavor := Flavor {
  fl_usize_max : N;       (* usize::MAX of the target *)
  fl_index : index_ty;    (* type Index *)
  fl_width : int_ty;      (* type Width *)
  fl_storage : storage;   (* type Storage<T> *)
  fl_indexes : storage;   (* type Indexes *)
}.

Definition usize_max_32 : N := 4294967295.
Definition usize_max_64 : N := 18446744073709551615.

(** src/flavor.rs lines 111-119, [FlavorDefault], on a 64-bit target. *)
Definition flavor_default : flavor :=
  Flavor usize_max_64 IxU32 Usize SVec SVec.

(** Targets on which the crate compiles: src/index.rs line 64 demands that u32 fits in
    usize. *)
Definition target_ok (F : flavor) : Prop :=
  fl_usize_max F = usize_max_32 \/ fl_usize_max F = usize_max_64.

(** Flavors whose link storage is [Vec]: all flavors declared by [flavor!]
    (src/flavor.rs lines 78-109, line 98) with the default [alloc] feature. *)
Definition vec_flavor (F : flavor) : Prop :=
  fl_storage F = SVec /\ (fl_indexes F = SVec \/ fl_indexes F = SEmptyVec).

Definition int_max (F : flavor) (t : int_ty) : N :=
  match t with
  | U8 => 255
  | U16 => 65535
  | U32 => 4294967295
  | U64 => 18446744073709551615
  | U128 => 340282366920938463463374607431768211455
  | Usize => fl_usize_max F
  end.

(** isize::MAX *)
Definition isize_max (F : flavor) : Z := (Z.of_N (fl_usize_max F) - 1) / 2.

(** [Storage::push]: [None] is an error. *)
Definition storage_push {A} (s : storage) (l : list A) (x : A) : option (list A) :=
  match s with
  | SVec => Some (l ++ [x])                       (* src/flavor.rs lines 46-49 *)
  | SEmptyVec => Some l                           (* src/empty.rs lines 93-95 *)
  | SBounded cap => if Nat.ltb (length l) cap then Some (l ++ [x]) else None
  end.
