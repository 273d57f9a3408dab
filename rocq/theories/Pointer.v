(** src/pointer.rs: pointers stored as non-zero integers, [value + 1]. *)
From Verif Require Import Base.
Open Scope N_scope.

(** src/pointer.rs lines 112-115, [$e::new]: [<$ty>::try_from(value).ok()?] then
    [NonZero::new(value.wrapping_add(1))].  [None] when out of range. *)
Definition ptr_new (F : flavor) (value : N) : option N :=
  if value <=? int_max F (fl_width F) then
    let w := (value + 1) mod (int_max F (fl_width F) + 1) in
    if w =? 0 then None else Some w
  else None.

(** src/pointer.rs lines 132-134, [$e::get]:
    [self.0.get().wrapping_sub(1) as usize]. *)
Definition ptr_get (F : flavor) (raw : N) : N :=
  ((raw + int_max F (fl_width F)) mod (int_max F (fl_width F) + 1))
    mod (fl_usize_max F + 1).

(** src/pointer.rs lines 157-160, [new_unchecked]: [value as $ty] truncates,
    then [wrapping_add(1)]; a zero result would be undefined behaviour. *)
Definition ptr_new_unchecked (F : flavor) (value : N) : N :=
  ((value mod (int_max F (fl_width F) + 1)) + 1) mod (int_max F (fl_width F) + 1).

(** src/pointer.rs lines 182-189, [Default::default]. *)
Definition ptr_default (F : flavor) : N := 1.

Close Scope N_scope.

(** [F::Pointer::new(self.tree.len())] as used by the builder.  From here on
    the model represents a pointer by its decoded value [get()].  The Pointer
    theorems (C11) show this loses nothing: [get] of [new value] is [value]
    for every usize. *)
Definition pointer_new (F : flavor) (value : nat) : option nat :=
  match ptr_new F (N.of_nat value) with
  | Some _ => Some value
  | None => None
  end.
