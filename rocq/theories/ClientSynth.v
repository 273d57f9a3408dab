(** The program examples/synthetic_strings.rs.  No proofs. *)
Set Implicit Arguments.
From Verif Require Import Base Index Tree Builder Hist Node Iter Text ClientMath.

(** lines 10-20, [enum Syntax]. *)
Inductive ysyntax := YSynthetic (id : nat) | YLiteral | YWhitespace | YError.

Fixpoint str_eqb (a b : str) : bool :=
  match a, b with
  | [], [] => true
  | x :: a, y :: b => (x =? y)%N && str_eqb a b
  | _, _ => false
  end.

(** lines 24-28, [struct Storage]; the [HashMap] as a list, latest entry first. *)
Record ystore := YStore { ys_lookup : list (str * nat); ys_storage : list str }.
Definition ystore_new : ystore := YStore [] [].
(** lines 32-37, [insert]. *)
Definition y_insert (s : ystore) (name value : str) : ystore :=
  YStore ((name, length (ys_storage s)) :: ys_lookup s) (ys_storage s ++ [value]).
(** lines 40-42, [lookup]. *)
Definition y_lookup (s : ystore) (name : str) : option nat :=
  option_map snd (find (fun e => str_eqb (fst e) name) (ys_lookup s)).
(** lines 44-46, [get]. *)
Definition y_get (s : ystore) (id : nat) : option str := nth_error (ys_storage s) id.

(** [char::is_ascii_lowercase], [char::is_ascii_alphabetic]. *)
Definition is_lower (c : char) : bool := ((97 <=? c) && (c <=? 122))%N.
Definition is_alpha (c : char) : bool := ((65 <=? c) && (c <=? 90) || is_lower c)%N.

(** How a program ends: with a value, with an error handed to the caller, with a panic (a slice out of
    bounds or inside a character), or not at all. *)
Inductive outcome (A : Type) := Done (a : A) | Failed (e : error) | Panicked | Endless.
Arguments Done {A} _.
Arguments Failed {A} _.
Arguments Panicked {A}.
Arguments Endless {A}.

(** lines 49-81, [lexer]: one element of the iterator ([None] inside [Done] at the end).  [eat] of lines
    84-88 is that of examples/math.rs. *)
Definition y_next (source : str) (store : ystore) (it : list (N * char)) : outcome (option ((ysyntax * N) * list (N * char))) :=
  let len := str_len source in
  let peek (it : list (N * char)) := match it with (n, _) :: _ => n | [] => len end in
  match it with
  | [] => Done None
  | (start, c) :: it =>
    let lexed :=
      if is_whitespace c then Some (YWhitespace, eat is_whitespace it)
      else if (c =? 36)%N then                                                   (* '$' *)
        let it := eat is_lower it in
        match str_get source ((start + 1)%N, peek it) with
        | None => None
        | Some id => Some (match y_lookup store id with Some id => YSynthetic id | None => YError end, it)
        end
      else if is_alpha c then Some (YLiteral, eat is_alpha it)
      else Some (YError, eat (fun c => negb (is_whitespace c)) it) in
    match lexed with
    | None => Panicked
    | Some (syntax, it) => Done (Some ((syntax, peek it - start)%N, it))
    end
  end.

(** lines 101-103: a token on the builder for each element. *)
Fixpoint y_tokens (fuel : nat) (F : flavor) (source : str) (store : ystore) (w : world ysyntax) (it : list (N * char))
  : outcome (world ysyntax) :=
  match fuel with
  | O => Endless
  | S fuel =>
    match y_next source store it with
    | Done None => Done w
    | Done (Some ((syntax, len), it)) =>
      match call F (OToken syntax len) w with
      | Ok w => y_tokens fuel F source store w it
      | Err e => Failed e
      | Diverge => Endless
      end
    | Failed e => Failed e
    | Panicked => Panicked
    | Endless => Endless
    end
  end.

(** The lines the program prints from line 111 on. *)
Inductive yline := YValue (count : nat) (s : str) | YNotFound (count : nat) (s : str) | YErrorLine (s : str).

(** lines 115-137: the loop over [tree.children()]. *)
Fixpoint y_eval (fuel : nat) (F : flavor) (source : str) (store : ystore) (nodes : list (links ysyntax))
  (it : children_it) (count : nat) : outcome (list yline) :=
  match fuel with
  | O => Endless
  | S fuel =>
    match children_next nodes it with
    | (_, None) => Done []
    | (it, Some n) =>
      let go (l : option yline) (count : nat) :=
        match y_eval fuel F source store nodes it count with
        | Done ls => Done (match l with Some l => l :: ls | None => ls end)
        | r => r
        end in
      let slice (k : str -> outcome (list yline)) :=
        match str_get source (node_range F n) with Some s => k s | None => Panicked end in
      match node_value n with
      | YSynthetic id =>
        match y_get store id with
        | Some s => go (Some (YValue count s)) (S count)
        | None => slice (fun s => go (Some (YNotFound count s)) (S count))
        end
      | YLiteral => slice (fun s => go (Some (YValue count s)) (S count))
      | YWhitespace => go None count
      | YError => slice (fun s => go (Some (YErrorLine s)) count)
      end
    end
  end.

(** lines 91-139, [main], after the arguments are read; line 94-95 fill the storage, here any storage.
    Lines 107-109 print the tree (see Render.v). *)
Definition y_program (F : flavor) (source : str) (store : ystore) : outcome (tree ysyntax * list yline) :=
  match y_tokens (S (length source)) F source store world_new (char_indices 0 source) with
  | Done w =>
    match build (w_builder w) with
    | Ok t =>
      match y_eval (S (tree_len t)) F source store (t_nodes t) (tree_children t) 0 with
      | Done ls => Done (t, ls)
      | Failed e => Failed e
      | Panicked => Panicked
      | Endless => Endless
      end
    | Err e => Failed e
    | Diverge => Endless
    end
  | Failed e => Failed e
  | Panicked => Panicked
  | Endless => Endless
  end.
