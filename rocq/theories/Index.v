(** src/index.rs, src/empty.rs, src/span.rs: indexes, lengths and spans.
    Index values are [N]; the single value of [Empty] is 0.  Lengths
    ([usize], or [Empty]) are [N] as well. *)
From Verif Require Import Base.
Open Scope N_scope.

(** [Index::EMPTY]: src/index.rs lines 67, 98; src/empty.rs line 32. *)
Definition ix_EMPTY : N := 0.

(** The values an index of this flavor can take. *)
Definition ix_max (F : flavor) : N :=
  match fl_index F with
  | IxU32 => 4294967295
  | IxUsize => fl_usize_max F
  | IxEmpty => 0
  end.

(** [Length::is_empty]: src/index.rs lines 58-60; src/empty.rs lines 73-75. *)
Definition len_is_empty (F : flavor) (len : N) : bool :=
  match fl_index F with
  | IxEmpty => true
  | _ => len =? 0
  end.

(** [Length::EMPTY]: src/index.rs line 55; src/empty.rs line 70. *)
Definition len_EMPTY : N := 0.

(** [Index::checked_add_len]: src/index.rs lines 82-84 (u32: the length is first
    converted with [u32::try_from]), 113-115 (usize); src/empty.rs lines 47-49. *)
Definition ix_checked_add_len (F : flavor) (self other : N) : option N :=
  match fl_index F with
  | IxU32 =>
      if other <=? 4294967295 then
        if self + other <=? 4294967295 then Some (self + other) else None
      else None
  | IxUsize =>
      if self + other <=? fl_usize_max F then Some (self + other) else None
  | IxEmpty => Some 0
  end.

(** [Index::len_to]: [other.saturating_sub(self)], src/index.rs lines 87-89,
    118-120; src/empty.rs lines 52-54.  [N] subtraction saturates at 0. *)
Definition ix_len_to (F : flavor) (self other : N) : N :=
  match fl_index F with
  | IxEmpty => 0
  | _ => other - self
  end.

(** [Index::from_usize]: src/index.rs lines 92-94, 123-125; src/empty.rs 57-59. *)
Definition ix_from_usize (F : flavor) (value : N) : option N :=
  match fl_index F with
  | IxU32 => if value <=? 4294967295 then Some value else None
  | IxUsize => Some value
  | IxEmpty => Some 0
  end.

(** [Index::as_usize]: src/index.rs lines 77-79, 108-110; src/empty.rs 42-44. *)
Definition ix_as_usize (F : flavor) (value : N) : N :=
  match fl_index F with
  | IxEmpty => 0
  | _ => value
  end.

(** ** Spans: src/span.rs lines 10-15 *)
Record span := Span { s_start : N; s_end : N }.

(** src/span.rs lines 54-59, [Span::point]. *)
Definition span_point (at_ : N) : span := Span at_ at_.

(** src/span.rs lines 79-87, [Span::join]. *)
Definition span_join (a b : span) : span :=
  Span (N.min (s_start a) (s_start b)) (N.max (s_end a) (s_end b)).

(** src/span.rs lines 101-106, [Span::is_empty]. *)
Definition span_is_empty (a : span) : bool := s_end a =? s_start a.

(** src/span.rs lines 121-127, [Span::contains]. *)
Definition span_contains (a : span) (i : N) : bool :=
  (s_start a <=? i) && (i <? s_end a).

(** src/span.rs lines 146-148, [Span::range]. *)
Definition span_range (F : flavor) (a : span) : N * N :=
  (ix_as_usize F (s_start a), ix_as_usize F (s_end a)).

(** src/span.rs lines 162-164, [Span::len]. *)
Definition span_len (F : flavor) (a : span) : N := ix_len_to F (s_start a) (s_end a).

(** src/span.rs lines 21-23, [PartialEq]. *)
Definition span_eqb (a b : span) : bool :=
  (s_start a =? s_start b) && (s_end a =? s_end b).

Definition set_end (a : span) (e : N) : span := Span (s_start a) e.
Close Scope N_scope.
