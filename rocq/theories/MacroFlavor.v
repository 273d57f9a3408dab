(** The [flavor!] macro: src/flavor.rs lines 52-109.  No proofs.  What is between the braces of the [struct] is modelled, as tokens;
    the doc comments, the visibility and the name (lines 81-82, 88-90) are passed on as they are and are left out.  A type is one token. *)
Set Implicit Arguments.
From Verif Require Import Base.

(** Types that a caller may write: the integers, [Empty], [Vec<TreeIndex<Self>>], [EmptyVec<TreeIndex<Self>>], a storage of their own that can fail, anything else. *)
Inductive ty := TyInt (i : int_ty) | TyEmpty | TyVec | TyEmptyVec | TyBounded (cap : nat) | TyOther (n : nat).
(** The names after [type] that the macro knows, and any other. *)
Inductive name := NIndex | NWidth | NStorage | NIndexes | NOther (n : nat).
Inductive tok := KType | Name (n : name) | Equals | Type_ (t : ty) | Semi.

(** ** [macro_rules!]: matching *)
(** A matcher: a token, [$x:ty] (the type is bound), or [$( .. )?]. *)
Inductive pat := PTok_ (t : tok) | PTy | POpt (p : list pat).
(** What is bound: for every [$x:ty] outside of a group the type, for every group its types, if it is there. *)
Definition binds : Type := list (option ty).

Definition name_eqb (a b : name) : bool :=
  match a, b with
  | NIndex, NIndex | NWidth, NWidth | NStorage, NStorage | NIndexes, NIndexes => true
  | NOther i, NOther j => Nat.eqb i j
  | _, _ => false
  end.
(** Tokens in a matcher of this macro: never a type. *)
Definition tok_eqb (a b : tok) : bool :=
  match a, b with
  | KType, KType | Equals, Equals | Semi, Semi => true
  | Name i, Name j => name_eqb i j
  | _, _ => false
  end.

(** All the ways to match a row of tokens and [$x:ty] at the front of the input: the types bound, and what is left. *)
Fixpoint match_flat (ps : list pat) (s : list tok) : option (list ty * list tok) :=
  match ps with
  | [] => Some ([], s)
  | PTok_ t :: ps => match s with x :: s => if tok_eqb t x then match_flat ps s else None | [] => None end
  | PTy :: ps => match s with Type_ x :: s => match match_flat ps s with Some (l, r) => Some (x :: l, r) | None => None end | _ => None end
  | POpt _ :: _ => None      (* no group in a group here *)
  end.
(** The compiler follows all possibilities at the same time and takes the arm if exactly one of them uses up the input. *)
Fixpoint match_all (ps : list pat) (s : list tok) : list binds :=
  match ps with
  | [] => match s with [] => [[]] | _ => [] end
  | POpt p :: ps =>
      map (cons None) (match_all ps s) ++
      match match_flat p s with
      | Some ([x], r) => map (cons (Some x)) (match_all ps r)
      | _ => []
      end
  | PTok_ t :: ps => match s with x :: s => if tok_eqb t x then match_all ps s else [] | [] => [] end
  | PTy :: ps => match s with Type_ x :: s => map (cons (Some x)) (match_all ps s) | _ => [] end
  end.
Definition match_arm (ps : list pat) (s : list tok) : option binds := match match_all ps s with [b] => Some b | _ => None end.

(** lines 82-87. *)
Definition field (n : name) : list pat := [PTok_ KType; PTok_ (Name n); PTok_ Equals; PTy; PTok_ Semi].
Definition body_pattern : list pat := field NIndex ++ [POpt (field NWidth); POpt (field NStorage); POpt (field NIndexes)].

(** ** What the expansion says *)
(** The types with the traits that [Flavor] demands (lines 133-148): [Index], [Width], and [Storage<TreeIndex<Self>, Error = Infallible>]. *)
Definition index_of (t : ty) : option index_ty :=
  match t with TyInt U32 => Some IxU32 | TyInt Usize => Some IxUsize | TyEmpty => Some IxEmpty | _ => None end.
Definition width_of (t : ty) : option int_ty := match t with TyInt i => Some i | _ => None end.
Definition indexes_of (t : ty) : option storage := match t with TyVec => Some SVec | TyEmptyVec => Some SEmptyVec | _ => None end.

(** lines 103-108: the inner rules [@width] ([@pointer] goes with it) and [@indexes]. *)
Definition at_width (o : option ty) : ty := match o with Some t => t | None => TyInt Usize end.
Definition at_indexes (o : option ty) : ty := match o with Some t => t | None => TyVec end.

(** lines 88-101, on a target with the given [usize::MAX]; [None]: does not compile.  [$storage] is bound and not used (line 98). *)
Definition flavor_macro (usize_max : N) (s : list tok) : option flavor :=
  match match_arm body_pattern s with
  | Some [Some index; width; _; indexes] =>
      match index_of index, width_of (at_width width), indexes_of (at_indexes indexes) with
      | Some i, Some w, Some x => Some (Flavor usize_max i w SVec x)
      | _, _, _ => None
      end
  | _ => None
  end.
