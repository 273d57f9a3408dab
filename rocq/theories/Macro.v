(** The arms of [tree!] (src/macros.rs lines 50-111) and [tree_with!] (149-155), on token trees.
    Simplified: the tokens of an expression other than a parenthesised list of expressions (so also of a block) are one
    token, [TAtom]; rustc's parser gathers them the same way for [$expr:expr].  Values and numbers of expressions are given
    by functions: types and evaluation are rustc's.  An input on which rustc's expression parser itself fails is an error there,
    as it is here ([None]: does not compile), though with another message. *)
From Verif Require Import Base Index Tree Builder Hist Print.

Inductive tt (A : Type) :=
| TAtom (a : A)
| TComma
| TArrow
| TParen (ts : list (tt A))
| TBrace (ts : list (tt A)).
Arguments TAtom {A} _. Arguments TComma {A}. Arguments TArrow {A}. Arguments TParen {A} _. Arguments TBrace {A} _.

(** [$expr:expr] takes this token tree: an atom, [()], [(e)], or a tuple, with or without a trailing comma. *)
Fixpoint is_expr {A} (x : tt A) : bool :=
  match x with
  | TAtom _ => true
  | TParen ts =>
      (fix go ts := match ts with
                    | [] => true
                    | x :: ts => is_expr x && match ts with [] => true | TComma :: ts => go ts | _ => false end
                    end) ts
  | _ => false
  end.

(** [$(,)?] up to the end. *)
Definition opt_comma {A} (ts : list (tt A)) : bool := match ts with [] | [TComma] => true | _ => false end.

Section Arms.
Context {A T : Type}.
Variables (val : tt A -> T) (num : tt A -> N).
(** What an arm expands to: calls of the builder, and further invocations of the macro. *)
Inductive piece := Call (o : op T) | Again (ts : list (tt A)).

(** line 51: [(@o $b:ident,)] *)
Definition arm1 (ts : list (tt A)) : option (list piece) := match ts with [] => Some [] | _ => None end.
(** lines 53-55: [($expr, ($start, $end)) $(,)?] *)
Definition arm2 (ts : list (tt A)) : option (list piece) :=
  match ts with
  | TParen [x; TComma; TParen [s; TComma; e]] :: r =>
      if is_expr x && is_expr s && is_expr e && opt_comma r then Some [Call (OTokenWith (val x) (Span (num s) (num e)))] else None
  | _ => None
  end.
(** lines 57-59: [($expr, $len) $(,)?] *)
Definition arm3 (ts : list (tt A)) : option (list piece) :=
  match ts with
  | TParen [x; TComma; n] :: r => if is_expr x && is_expr n && opt_comma r then Some [Call (OToken (val x) (num n))] else None
  | _ => None
  end.
(** lines 61-64: [($expr, ($start, $end)), $($rest)*] *)
Definition arm4 (ts : list (tt A)) : option (list piece) :=
  match ts with
  | TParen [x; TComma; TParen [s; TComma; e]] :: TComma :: rest =>
      if is_expr x && is_expr s && is_expr e then Some [Call (OTokenWith (val x) (Span (num s) (num e))); Again rest] else None
  | _ => None
  end.
(** lines 66-69: [($expr, $len), $($rest)*] *)
Definition arm5 (ts : list (tt A)) : option (list piece) :=
  match ts with
  | TParen [x; TComma; n] :: TComma :: rest => if is_expr x && is_expr n then Some [Call (OToken (val x) (num n)); Again rest] else None
  | _ => None
  end.
(** lines 71-73: [$expr $(,)?] *)
Definition arm6 (ts : list (tt A)) : option (list piece) :=
  match ts with x :: r => if is_expr x && opt_comma r then Some [Call (OTokenEmpty (val x))] else None | _ => None end.
(** lines 75-78: [$expr, $($rest)*] *)
Definition arm7 (ts : list (tt A)) : option (list piece) :=
  match ts with x :: TComma :: rest => if is_expr x then Some [Call (OTokenEmpty (val x)); Again rest] else None | _ => None end.
(** lines 80-84: [($expr, ($start, $end)) => { $($tt)* } $(,)?] *)
Definition arm8 (ts : list (tt A)) : option (list piece) :=
  match ts with
  | TParen [x; TComma; TParen [s; TComma; e]] :: TArrow :: TBrace ks :: r =>
      if is_expr x && is_expr s && is_expr e && opt_comma r then Some [Call (OOpenWith (val x) (Span (num s) (num e))); Again ks; Call OClose] else None
  | _ => None
  end.
(** lines 86-90: [$expr => { $($tt)* } $(,)?] *)
Definition arm9 (ts : list (tt A)) : option (list piece) :=
  match ts with
  | x :: TArrow :: TBrace ks :: r => if is_expr x && opt_comma r then Some [Call (OOpen (val x)); Again ks; Call OClose] else None
  | _ => None
  end.
(** lines 92-97: [($expr, ($start, $end)) => { $($tt)* }, $($rest)*] *)
Definition arm10 (ts : list (tt A)) : option (list piece) :=
  match ts with
  | TParen [x; TComma; TParen [s; TComma; e]] :: TArrow :: TBrace ks :: TComma :: rest =>
      if is_expr x && is_expr s && is_expr e then Some [Call (OOpenWith (val x) (Span (num s) (num e))); Again ks; Call OClose; Again rest] else None
  | _ => None
  end.
(** lines 99-104: [$expr => { $($tt)* }, $($rest)*] *)
Definition arm11 (ts : list (tt A)) : option (list piece) :=
  match ts with
  | x :: TArrow :: TBrace ks :: TComma :: rest => if is_expr x then Some [Call (OOpen (val x)); Again ks; Call OClose; Again rest] else None
  | _ => None
  end.

(** The first arm that matches. *)
Definition first_arm (ts : list (tt A)) : option (list piece) :=
  fold_right (fun (arm : list (tt A) -> option (list piece)) other => match arm ts with Some p => Some p | None => other end) None
    [arm1; arm2; arm3; arm4; arm5; arm6; arm7; arm8; arm9; arm10; arm11].

(** [tree!(@o b, ts)]: [limit] invocations may be nested (rustc's [recursion_limit]). *)
Fixpoint macro_calls (limit : nat) (ts : list (tt A)) : option (list (op T)) :=
  match limit with
  | O => None
  | S limit =>
      match first_arm ts with
      | None => None
      | Some ps =>
          fold_right (fun p acc => match p, acc with
                                   | _, None => None
                                   | Call o, Some ops => Some (o :: ops)
                                   | Again ts, Some ops => match macro_calls limit ts with Some more => Some (more ++ ops) | None => None end
                                   end) (Some []) ps
      end
  end.

(** lines 106-110 and 150-154: a new builder, the calls, each with [?], and [build()?].  (The names of the two macros differ in the
    builder's constructor only: the flavor.)  [None]: does not compile. *)
Definition tree_invocation (F : flavor) (limit : nat) (ts : list (tt A)) : option (result (tree T)) :=
  match limit with
  | O => None
  | S limit =>
      match macro_calls limit ts with
      | None => None
      | Some ops => Some match run_try F world_new ops with Ok w => build (w_builder w) | Err e => Err e | Diverge => Diverge end
      end
  end.
End Arms.
Arguments piece : clear implicits.
