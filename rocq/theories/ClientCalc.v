(** The program examples/calculator: lexer, parser, grammar, evaluation.  No proofs. *)
Set Implicit Arguments.
From Verif Require Import Base Index Tree Builder Hist Node Iter Text ClientMath.

(** main.rs lines 15-36, [enum Syntax]. *)
Inductive csyntax :=
| CNumber | CPlus | CMinus | CDiv | CMul | CPow | CWhitespace | COperator | COpenParen | CCloseParen
| COperation | CGroup | CEof | CError.
Definition csyntax_eqb (a b : csyntax) : bool :=
  match a, b with
  | CNumber, CNumber | CPlus, CPlus | CMinus, CMinus | CDiv, CDiv | CMul, CMul | CPow, CPow
  | CWhitespace, CWhitespace | COperator, COperator | COpenParen, COpenParen | CCloseParen, CCloseParen
  | COperation, COperation | CGroup, CGroup | CEof, CEof | CError, CError => true
  | _, _ => false
  end.

(** ** lexer.rs *)
(** lines 5-9, [struct Token]. *)
Notation ctoken := (csyntax * N)%type (only parsing).
(** lines 11-19, [struct Lexer]: the source is fixed, the state is the cursor. *)
Section Lexer.
Variable source : str.
(** lines 22-24. *)
Definition lx_peek (cursor : N) : option char :=
  match str_from source cursor with Some s => hd_error s | None => None end.
(** lines 27-31. *)
Definition lx_step (cursor : N) : N :=
  match lx_peek cursor with Some c => (cursor + len_utf8 c)%N | None => cursor end.
(** lines 34-42. *)
Fixpoint lx_while_loop (fuel : nat) (cond : char -> bool) (cursor : N) : result N :=
  match fuel with
  | O => Diverge
  | S fuel =>
    match lx_peek cursor with
    | Some c => if negb (cond c) then Ok cursor else lx_while_loop fuel cond (lx_step cursor)
    | None => Ok cursor
    end
  end.
Definition lx_while (cond : char -> bool) (cursor : N) : result N := lx_while_loop (S (length source)) cond cursor.
(** lines 45-96. *)
Definition lx_next (cursor : N) : result (N * option ctoken) :=
  match lx_peek cursor with
  | None => Ok (cursor, None)
  | Some c =>
    let start := cursor in
    do (syntax, cursor) <-
      (if is_whitespace c then do e <- lx_while is_whitespace (lx_step cursor); Ok (CWhitespace, e)
       else if (c =? 43)%N then Ok (CPlus, lx_step cursor)         (* '+' *)
       else if (c =? 45)%N then Ok (CMinus, lx_step cursor)        (* '-' *)
       else if (c =? 42)%N then Ok (CMul, lx_step cursor)          (* '*' *)
       else if (c =? 47)%N then Ok (CDiv, lx_step cursor)          (* '/' *)
       else if (c =? 94)%N then Ok (CPow, lx_step cursor)          (* '^' *)
       else if (c =? 40)%N then Ok (COpenParen, lx_step cursor)    (* '(' *)
       else if (c =? 41)%N then Ok (CCloseParen, lx_step cursor)   (* ')' *)
       else if is_digit c then do e <- lx_while is_digit (lx_step cursor); Ok (CNumber, e)
       else do e <- lx_while (fun c => negb (is_whitespace c)) cursor; Ok (CError, e));
    Ok (cursor, Some (syntax, (cursor - start)%N))
  end.

(** ** parsing.rs *)
(** lines 10-24, [struct Parser]: the lexer's cursor, the builder, one token of lookahead. *)
Record cparser := CParser { cp_cursor : N; cp_world : world csyntax; cp_buf : option ctoken }.
Definition cparser_new : cparser := CParser 0 world_new None.

Variable F : flavor.  (* [FlavorDefault] in the program *)

(** A call on [p.tree] followed by [?]. *)
Definition c_call (o : op csyntax) (p : cparser) : result cparser :=
  do w <- call F o (cp_world p); Ok (CParser (cp_cursor p) w (cp_buf p)).
Definition c_checkpoint (p : cparser) : result (cparser * nat) :=
  do (w, c) <- call_checkpoint F (cp_world p); Ok (CParser (cp_cursor p) w (cp_buf p), c).

(** lines 98-115, [fill]. *)
Fixpoint c_fill_loop (fuel : nat) (p : cparser) : result cparser :=
  match fuel with
  | O => Diverge
  | S fuel =>
    match cp_buf p with
    | Some _ => Ok p
    | None =>
      do (cursor, t) <- lx_next (cp_cursor p);
      match t with
      | None => Ok (CParser cursor (cp_world p) (cp_buf p))
      | Some (CWhitespace, len) =>
        do p <- c_call (OToken CWhitespace len) (CParser cursor (cp_world p) (cp_buf p));
        c_fill_loop fuel p
      | Some tok => c_fill_loop fuel (CParser cursor (cp_world p) (Some tok))
      end
    end
  end.
Definition c_fill (p : cparser) : result cparser := c_fill_loop (S (S (length source))) p.
(** lines 27-39, [peek]. *)
Definition c_peek (p : cparser) : result (cparser * ctoken) :=
  do p <- c_fill p;
  Ok (p, match cp_buf p with Some tok => tok | None => (CEof, 0%N) end).
(** lines 42-44, [is_eof]. *)
Definition c_is_eof (p : cparser) : result (cparser * bool) :=
  do (p, t) <- c_peek p; Ok (p, csyntax_eqb (fst t) CEof).
(** lines 92-96, [step]. *)
Definition c_step (p : cparser) : result (cparser * ctoken) :=
  do (p, tok) <- c_peek p; Ok (CParser (cp_cursor p) (cp_world p) None, tok).
(** lines 47-55, [eat]. *)
Definition c_eat (what : csyntax) (p : cparser) : result (cparser * bool) :=
  do (p, t) <- c_peek p;
  if negb (csyntax_eqb (fst t) what) then Ok (p, false)
  else
    do (p, tok) <- c_step p;
    do p <- c_call (OToken (fst tok) (snd tok)) p;
    Ok (p, true).
(** lines 58-62, [token]. *)
Definition c_token (p : cparser) : result cparser :=
  do (p, tok) <- c_step p; c_call (OToken (fst tok) (snd tok)) p.
(** lines 65-71, [bump]. *)
Definition c_bump (what : csyntax) (p : cparser) : result cparser :=
  do (p, tok) <- c_step p;
  do p <- c_call (OOpen what) p;
  do p <- c_call (OToken (fst tok) (snd tok)) p;
  c_call OClose p.
(** lines 74-89, [advance_until]. *)
Fixpoint c_advance_loop (fuel : nat) (any : list csyntax) (p : cparser) : result cparser :=
  match fuel with
  | O => Diverge
  | S fuel =>
    do (p, t) <- c_peek p;
    if csyntax_eqb (fst t) CEof || existsb (csyntax_eqb (fst t)) any then Ok p
    else
      do p <- c_call (OToken (fst t) (snd t)) p;
      do (p, _) <- c_step p;
      c_advance_loop fuel any p
  end.
Definition c_advance_until (any : list csyntax) (p : cparser) : result cparser :=
  c_advance_loop (S (S (length source))) any p.

(** ** grammar.rs *)
(** lines 7-16, [op]. *)
Definition c_op (s : csyntax) : option (N * N) :=
  match s with
  | CPlus | CMinus => Some (1, 2)%N
  | CDiv | CMul => Some (3, 4)%N
  | CPow => Some (7, 8)%N
  | _ => None
  end.
(** lines 18-66, [expr]; [c_expr_loop] is the loop of lines 48-59, returning [operation]. *)
Fixpoint c_expr (fuel : nat) (min : N) (p : cparser) : result cparser :=
  match fuel with
  | O => Diverge
  | S fuel =>
    do (p, tok) <- c_peek p;
    do (p, c) <- c_checkpoint p;
    do (p, return_) <-
      match fst tok with
      | COpenParen =>
        do p <- c_token p;
        do (p, c) <- c_checkpoint p;
        do p <- c_expr fuel 0 p;
        do p <- c_call (OCloseAt c CGroup) p;
        do (p, b) <- c_eat CCloseParen p;
        if negb b then do p <- c_bump CError p; Ok (p, true) else Ok (p, false)
      | CNumber => do p <- c_bump CNumber p; Ok (p, false)
      | _ => do p <- c_bump CError p; Ok (p, true)
      end;
    if return_ : bool then Ok p
    else
      do (p, operation) <- c_expr_loop fuel min false p;
      if operation : bool then c_call (OCloseAt c COperation) p else Ok p
  end
with c_expr_loop (fuel : nat) (min : N) (operation : bool) (p : cparser) : result (cparser * bool) :=
  match fuel with
  | O => Diverge
  | S fuel =>
    do (p, tok) <- c_peek p;
    match c_op (fst tok) with
    | Some (lp, rp) =>
      if (min <=? lp)%N then
        do p <- c_bump COperator p;
        do p <- c_expr fuel rp p;
        c_expr_loop fuel min true p
      else Ok (p, operation)
    | None => Ok (p, operation)
    end
  end.
(** lines 69-85, [root]. *)
Definition c_expr_fuel : nat := S (S (2 * length source)).
Fixpoint c_root_loop (fuel : nat) (p : cparser) : result cparser :=
  match fuel with
  | O => Diverge
  | S fuel =>
    do p <- c_expr c_expr_fuel 0 p;
    do (p, b) <- c_is_eof p;
    if b : bool then Ok p
    else
      do (p, c) <- c_checkpoint p;
      do p <- c_advance_until [CNumber] p;
      do p <- c_call (OCloseAt c CError) p;
      c_root_loop fuel p
  end.
Definition c_root (p : cparser) : result cparser := c_root_loop (S (S (length source))) p.
(** main.rs lines 41-44. *)
Definition calc_tree : result (tree csyntax) :=
  do p <- c_root cparser_new; build (w_builder (cp_world p)).
End Lexer.

(** ** eval.rs *)
(** lines 22-47, [EvalErrorKind], and the span of [EvalError]. *)
Inductive eval_kind :=
| EExpected (a b : csyntax) | EMissing (a : csyntax) | EBadNumber | EUnexpectedOperator (a : csyntax)
| EExpectedOperator | EOverflow | EUnderflow | EDivideByZero.
(** What an evaluation does: [EvPanic] is a slice index out of bounds or inside a character (line 71). *)
Inductive evaluation := EvOk (z : Z) | EvErr (sp : span) (k : eval_kind) | EvPanic | EvDiverge.

(** [i64::checked_*]; division truncates. *)
Definition checked_add (a b : Z) := i64_check (a + b).
Definition checked_sub (a b : Z) := i64_check (a - b).
Definition checked_mul (a b : Z) := i64_check (a * b).
Definition checked_div (a b : Z) := if (b =? 0)%Z then None else i64_check (Z.quot a b).
(** lines 54-57: [u32::try_from(b).ok()?], then [checked_pow], the exact power if it fits. *)
Definition u32_max : Z := 4294967295%Z.
Definition checked_pow (a b : Z) : option Z :=
  if ((0 <=? b) && (b <=? u32_max))%Z then i64_check (Z.pow a b) else None.
(** lines 88-95. *)
Definition calculate (op : csyntax) : option ((Z -> Z -> option Z) * eval_kind) :=
  match op with
  | CPlus => Some (checked_add, EOverflow)
  | CMinus => Some (checked_sub, EUnderflow)
  | CMul => Some (checked_mul, EOverflow)
  | CDiv => Some (checked_div, EDivideByZero)
  | CPow => Some (checked_pow, EOverflow)
  | _ => None
  end.

Section Eval.
Variables (F : flavor) (source : str) (nodes : list (links csyntax)).
(** [children().skip_tokens()]: one [next]. *)
Definition skip_tokens_next (c : children_it) : result (children_it * option (node csyntax)) :=
  skip_next (S (length nodes)) (total (children_next nodes)) c.

(** lines 59-113, [eval_node]; [eval_ops] is the loop of lines 83-106.  One [fuel] for the recursion,
    the loop of line 63 and the loop of line 83. *)
Fixpoint eval_node (fuel : nat) (n : node csyntax) : evaluation :=
  match fuel with
  | O => EvDiverge
  | S fuel =>
    match node_value n with
    | CGroup =>
      match node_first nodes n with
      | Some m => eval_node fuel m
      | None => EvErr (node_span n) (EMissing CNumber)
      end
    | CNumber =>
      match str_get source (node_range F n) with
      | Some s => match parse_i64 s with Some z => EvOk z | None => EvErr (node_span n) EBadNumber end
      | None => EvPanic
      end
    | COperation =>
      match skip_tokens_next (node_children n) with
      | Ok (it, Some first) =>
        match eval_node fuel first with
        | EvOk base => eval_ops fuel n it base
        | r => r
        end
      | Ok (_, None) => EvErr (node_span n) (EMissing CNumber)
      | _ => EvDiverge
      end
    | what => EvErr (node_span n) (EExpected CNumber what)
    end
  end
with eval_ops (fuel : nat) (n : node csyntax) (it : children_it) (base : Z) : evaluation :=
  match fuel with
  | O => EvDiverge
  | S fuel =>
    match skip_tokens_next it with
    | Ok (it, Some op) =>
      match node_first nodes op with
      | None => EvErr (node_span n) EExpectedOperator
      | Some op =>
        match calculate (node_value op) with
        | None => EvErr (node_span n) (EUnexpectedOperator (node_value op))
        | Some (f, error) =>
          match skip_tokens_next it with
          | Ok (it, Some first) =>
            match eval_node fuel first with
            | EvOk b =>
              match f base b with
              | Some base => eval_ops fuel n it base
              | None => EvErr (span_join (node_span op) (node_span n)) error
              end
            | r => r
            end
          | Ok (_, None) => EvErr (node_span n) (EMissing CNumber)
          | _ => EvDiverge
          end
        end
      end
    | Ok (_, None) => EvOk base
    | _ => EvDiverge
    end
  end.
End Eval.

(** lines 116-129, [eval]: all the results of the iterator. *)
Definition eval_fuel (t : tree csyntax) : nat := S (2 * length (t_nodes t)).
Fixpoint eval_loop (fuel : nat) (F : flavor) (source : str) (t : tree csyntax) (it : children_it) : result (list evaluation) :=
  match fuel with
  | O => Diverge
  | S fuel =>
    do (it, n) <- skip_tokens_next (t_nodes t) it;
    match n with
    | None => Ok []
    | Some n => do l <- eval_loop fuel F source t it; Ok (eval_node F source (t_nodes t) (eval_fuel t) n :: l)
    end
  end.
Definition calc_eval (F : flavor) (source : str) (t : tree csyntax) : result (list evaluation) :=
  eval_loop (S (length (t_nodes t))) F source t (tree_children t).

(** main.rs lines 39-66: parse, build, evaluate. *)
Definition calculator (F : flavor) (source : str) : result (list evaluation) :=
  do t <- calc_tree source F; calc_eval F source t.
