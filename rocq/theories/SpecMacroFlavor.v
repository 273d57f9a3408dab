(** Specification: calls of [flavor!]. *)
From Verif Require Import Base MacroFlavor.

(** [type <name> = <type>;] *)
Definition said (n : name) (t : ty) : list tok := [KType; Name n; Equals; Type_ t; Semi].
Definition maybe (n : name) (o : option ty) : list tok := match o with Some t => said n t | None => [] end.
(** A call with an index, and maybe a width, a storage and indexes, in this order. *)
Definition call (index : ty) (width storage indexes : option ty) : list tok :=
  said NIndex index ++ maybe NWidth width ++ maybe NStorage storage ++ maybe NIndexes indexes.

(** What may be written for each: an index is [u32], [usize] or [Empty]; a width any unsigned integer; indexes a storage that cannot fail. *)
Inductive an_index : ty -> index_ty -> Prop :=
| ix_u32 : an_index (TyInt U32) IxU32
| ix_usize : an_index (TyInt Usize) IxUsize
| ix_empty : an_index TyEmpty IxEmpty.
Inductive a_width : ty -> int_ty -> Prop := wd_int i : a_width (TyInt i) i.
Inductive some_indexes : ty -> storage -> Prop :=
| xs_vec : some_indexes TyVec SVec
| xs_empty : some_indexes TyEmptyVec SEmptyVec.
(** A type, or if there is none the default. *)
Definition or_else (o : option ty) (d : ty) : ty := match o with Some t => t | None => d end.
