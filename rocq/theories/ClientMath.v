(** The program examples/math.rs (a lexer, a recursive-descent parser on a builder).  No proofs. *)
Set Implicit Arguments.
From Verif Require Import Base Index Tree Builder Hist Text.

(** ** Calls on a builder followed by [?]: the error is handed on. *)
Definition bind {A B} (r : result A) (k : A -> result B) : result B :=
  match r with Ok a => k a | Err e => Err e | Diverge => Diverge end.
Notation "'do' x <- r ; k" := (bind r (fun x => k)) (at level 200, x pattern, r at level 100, k at level 200).

Definition call {T} (F : flavor) (o : op T) (w : world T) : result (world T) :=
  match step F w o with
  | (_, RErr e) => Err e
  | (_, RDiverge) => Diverge
  | (w, _) => Ok w
  end.
(** [let c = builder.checkpoint()?]: the checkpoint is named by its number among those taken. *)
Definition call_checkpoint {T} (F : flavor) (w : world T) : result (world T * nat) :=
  do w' <- call F OCheckpoint w; Ok (w', length (w_env w)).

(** lines 8-22, [enum Syntax]. *)
Inductive msyntax := MAdd | MSub | MMul | MDiv | MWhitespace | MNumber | MError | MOperation | MRoot.
Definition msyntax_eqb (a b : msyntax) : bool :=
  match a, b with
  | MAdd, MAdd | MSub, MSub | MMul, MMul | MDiv, MDiv | MWhitespace, MWhitespace
  | MNumber, MNumber | MError, MError | MOperation, MOperation | MRoot, MRoot => true
  | _, _ => false
  end.

(** ** The lexer, lines 101-139.  [it] is [char_indices().peekable()]. *)
(** lines 134-138, [eat]. *)
Fixpoint eat (cond : char -> bool) (it : list (N * char)) : list (N * char) :=
  match it with
  | (n, c) :: it' => if cond c then eat cond it' else it
  | [] => []
  end.
(** lines 105-131: one element of the iterator. *)
Definition math_next (len : N) (it : list (N * char)) : option ((msyntax * N) * list (N * char)) :=
  match it with
  | [] => None
  | (start, c) :: it =>
    let '(syntax, it) :=
      if is_whitespace c then (MWhitespace, eat is_whitespace it)
      else if (c =? 43)%N then (MAdd, it)                                         (* '+' *)
      else if (c =? 45)%N then (MSub, it)                                         (* '-' *)
      else if (c =? 47)%N then (MDiv, it)                                         (* '/' *)
      else if (c =? 42)%N then (MMul, it)                                         (* '*' *)
      else if is_digit c then (MNumber, eat (fun c => is_digit c || (c =? 46)%N) it)  (* '.' *)
      else (MError, eat (fun c => negb (is_whitespace c)) it) in
    let e := match it with (n, _) :: _ => n | [] => len end in
    Some ((syntax, e - start)%N, it)
  end.
(** All its elements.  The iterator is lazy in Rust; its elements depend on nothing but the source. *)
Fixpoint math_lex (fuel : nat) (len : N) (it : list (N * char)) : list (msyntax * N) :=
  match fuel with
  | O => []
  | S fuel => match math_next len it with Some (t, it) => t :: math_lex fuel len it | None => [] end
  end.
Definition math_lexer (source : str) : list (msyntax * N) :=
  math_lex (S (length source)) (str_len source) (char_indices 0 source).

(** ** The parser, lines 26-99.  The state: the builder and what is left of the tokens. *)
Record mparser := MParser { mp_world : world msyntax; mp_iter : list (msyntax * N) }.

Section Parser.
Variable F : flavor.  (* [FlavorDefault] in the program *)

(** lines 46-52, [bump]. *)
Definition m_bump (p : mparser) : result mparser :=
  match mp_iter p with
  | (token, len) :: it => do w <- call F (OToken token len) (mp_world p); Ok (MParser w it)
  | [] => Ok p
  end.
(** lines 38-44, [peek]. *)
Fixpoint m_peek_loop (fuel : nat) (p : mparser) : result (mparser * option msyntax) :=
  match fuel with
  | O => Diverge
  | S fuel =>
    match mp_iter p with
    | (MWhitespace, _) :: _ => do p <- m_bump p; m_peek_loop fuel p
    | it => Ok (p, option_map fst (hd_error it))
    end
  end.
Definition m_peek (p : mparser) := m_peek_loop (S (length (mp_iter p))) p.

(** lines 54-67, [parse_val]. *)
Definition m_parse_val (p : mparser) : result mparser :=
  do (p, t) <- m_peek p;
  match t with
  | Some MNumber => m_bump p
  | _ =>
    do w <- call F (OOpen MError) (mp_world p);
    do p <- m_bump (MParser w (mp_iter p));
    do w <- call F OClose (mp_world p);
    Ok (MParser w (mp_iter p))
  end.

(** lines 69-84, [handle_operation]. *)
Fixpoint m_operations (fuel : nat) (tokens : list msyntax) (next : mparser -> result mparser) (c : nat) (p : mparser)
  : result mparser :=
  match fuel with
  | O => Diverge
  | S fuel =>
    do (p, t) <- m_peek p;
    if match t with Some t => existsb (msyntax_eqb t) tokens | None => false end then
      do p <- m_bump p;
      do p <- next p;
      do w <- call F (OCloseAt c MOperation) (mp_world p);
      m_operations fuel tokens next c (MParser w (mp_iter p))
    else Ok p
  end.
Definition m_handle_operation (tokens : list msyntax) (next : mparser -> result mparser) (p : mparser) : result mparser :=
  do (w, c) <- call_checkpoint F (mp_world p);
  do p <- next (MParser w (mp_iter p));
  m_operations (S (length (mp_iter p))) tokens next c p.

(** lines 86-92. *)
Definition m_parse_mul : mparser -> result mparser := m_handle_operation [MMul; MDiv] m_parse_val.
Definition m_parse_add : mparser -> result mparser := m_handle_operation [MAdd; MSub] m_parse_mul.

(** lines 94-99, [parse]. *)
Definition m_parse (p : mparser) : result (tree msyntax) :=
  do w <- call F (OOpen MRoot) (mp_world p);
  do p <- m_parse_add (MParser w (mp_iter p));
  do w <- call F OClose (mp_world p);
  build (w_builder w).

(** lines 141-151, up to the printing. *)
Definition math_program (source : str) : result (tree msyntax) :=
  m_parse (MParser world_new (math_lexer source)).
End Parser.
