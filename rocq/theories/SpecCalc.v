(** Specification for examples/calculator: its lexical grammar, its syntax trees without a builder,
    arithmetic expressions and their values. *)
Set Implicit Arguments.
From Verif Require Import Base Index Spec SpecEq Text ClientMath ClientCalc SpecProgram SpecChars.

Notation ctok := (csyntax * N)%type.
Definition cleaf (t : ctok) : gtree csyntax := GTok (fst t) (snd t).

(** ** Tokens and the text they stand for. *)
Definition punct (c : char) : option csyntax :=
  match c with
  | 43 => Some CPlus | 45 => Some CMinus | 42 => Some CMul | 47 => Some CDiv | 94 => Some CPow
  | 40 => Some COpenParen | 41 => Some CCloseParen
  | _ => None
  end%N.
Inductive clexeme : csyntax -> str -> Prop :=
| cl_space c s : is_whitespace c = true -> forallb is_whitespace s = true -> clexeme CWhitespace (c :: s)
| cl_punct c k : punct c = Some k -> clexeme k [c]
| cl_number c s : is_digit c = true -> forallb is_digit s = true -> clexeme CNumber (c :: s)
| cl_error c s : is_whitespace c = false -> is_digit c = false -> punct c = None ->
    forallb (fun c => negb (is_whitespace c)) s = true -> clexeme CError (c :: s).
(** What a lexeme is not followed by: it is as long as it can be. *)
Definition cends (k : csyntax) (rest : str) : Prop :=
  match rest with
  | [] => True
  | c :: _ =>
    match k with
    | CWhitespace => is_whitespace c = false
    | CNumber => is_digit c = false
    | CError => is_whitespace c = true
    | _ => True
    end
  end.
Inductive clexes : str -> list ctok -> Prop :=
| clexes_nil : clexes [] []
| clexes_cons k s rest ts : clexeme k s -> cends k rest -> clexes rest ts -> clexes (s ++ rest) ((k, str_len s) :: ts).

(** ** The grammar: which trees the parser makes of a list of tokens, and what it leaves. *)
Definition cblank (t : ctok) : Prop := fst t = CWhitespace.
Definition cnot_blank (ts : list ctok) : Prop := forall t r, ts = t :: r -> ~ cblank t.
(** The next token; at the end, an empty token [Eof]. *)
Definition next_token (ts : list ctok) : ctok := match ts with t :: _ => t | [] => (CEof, 0%N) end.
(** The operators and how tightly they bind to the left and to the right. *)
Definition binding (k : csyntax) : option (N * N) :=
  match k with CPlus | CMinus => Some (1, 2) | CMul | CDiv => Some (3, 4) | CPow => Some (7, 8) | _ => None end%N.
Definition joins (min : N) (ts : list ctok) : Prop := exists lp rp, binding (fst (next_token ts)) = Some (lp, rp) /\ (min <= lp)%N.
Definition operation_of (op : bool) (gs : list (gtree csyntax)) : list (gtree csyntax) := if op then [GNode COperation gs] else gs.

(** [cexpr min ts out rest]: an expression whose operators bind at least as tightly as [min].
    [ctail min op acc ts out op' rest]: the operators after the operand(s) [acc]; [op]: there is an operator. *)
Inductive cexpr : N -> list ctok -> list (gtree csyntax) -> list ctok -> Prop :=
| cexpr_number min ws n r out op rest : Forall cblank ws ->
    ctail min false [GNode CNumber [GTok CNumber n]] r out op rest ->
    cexpr min (ws ++ (CNumber, n) :: r) (map cleaf ws ++ operation_of op out) rest
| cexpr_group min ws n r1 inner ws2 m r2 out op rest : Forall cblank ws -> Forall cblank ws2 ->
    cexpr 0 r1 inner (ws2 ++ (CCloseParen, m) :: r2) ->
    ctail min false (GTok COpenParen n :: GNode CGroup inner :: map cleaf ws2 ++ [GTok CCloseParen m]) r2 out op rest ->
    cexpr min (ws ++ (COpenParen, n) :: r1) (map cleaf ws ++ operation_of op out) rest
| cexpr_unclosed min ws n r1 inner ws2 r2 : Forall cblank ws -> Forall cblank ws2 -> cnot_blank r2 ->
    cexpr 0 r1 inner (ws2 ++ r2) -> fst (next_token r2) <> CCloseParen ->
    cexpr min (ws ++ (COpenParen, n) :: r1)
      (map cleaf ws ++ GTok COpenParen n :: GNode CGroup inner :: map cleaf ws2 ++ [GNode CError [cleaf (next_token r2)]]) (tl r2)
| cexpr_other min ws r : Forall cblank ws -> cnot_blank r -> fst (next_token r) <> CNumber -> fst (next_token r) <> COpenParen ->
    cexpr min (ws ++ r) (map cleaf ws ++ [GNode CError [cleaf (next_token r)]]) (tl r)
with ctail : N -> bool -> list (gtree csyntax) -> list ctok -> list (gtree csyntax) -> bool -> list ctok -> Prop :=
| ctail_stop min op acc ws r : Forall cblank ws -> cnot_blank r -> ~ joins min r ->
    ctail min op acc (ws ++ r) (acc ++ map cleaf ws) op r
| ctail_more min op acc ws k n r1 lp rp e r2 out op' rest : Forall cblank ws -> binding k = Some (lp, rp) -> (min <= lp)%N ->
    cexpr rp r1 e r2 ->
    ctail min true (acc ++ map cleaf ws ++ GNode COperator [GTok k n] :: e) r2 out op' rest ->
    ctail min op acc (ws ++ (k, n) :: r1) out op' rest.
(** Expressions one after another; what is between them, up to the next number, is an error. *)
Inductive croot : list ctok -> list (gtree csyntax) -> Prop :=
| croot_end ts out ws : cexpr 0 ts out ws -> Forall cblank ws -> croot ts (out ++ map cleaf ws)
| croot_more ts out ws skipped r outs : cexpr 0 ts out (ws ++ skipped ++ r) -> Forall cblank ws ->
    cnot_blank (skipped ++ r) -> skipped ++ r <> [] ->
    Forall (fun t => fst t <> CNumber) skipped -> (forall t r', r = t :: r' -> fst t = CNumber) ->
    croot r outs -> croot ts (out ++ map cleaf ws ++ GNode CError (map cleaf skipped) :: outs).

(** All the tokens of trees but the empty ones that stand for the end of the source. *)
Definition real_tokens (gs : list (gtree csyntax)) : list ctok :=
  filter (fun t => negb (csyntax_eqb (fst t) CEof)) (flat_map leaves gs).

(** ** Arithmetic expressions: text and value. *)
Inductive coperator := Add | Sub | Mul | Div | Pow.
(** Space before each token; [EPar space e space'] is [(e)], [EBin l space o r] is [l o r]. *)
Inductive cexp :=
| ENum (space digits : str)
| EPar (space : str) (e : cexp) (space' : str)
| EBin (l : cexp) (space : str) (o : coperator) (r : cexp).
Definition coperator_char (o : coperator) : char := match o with Add => 43 | Sub => 45 | Mul => 42 | Div => 47 | Pow => 94 end%N.
Fixpoint cexp_text (e : cexp) : str :=
  match e with
  | ENum space digits => space ++ digits
  | EPar space e space' => space ++ 40%N :: cexp_text e ++ space' ++ [41%N]
  | EBin l space o r => cexp_text l ++ space ++ coperator_char o :: cexp_text r
  end.

(** Precedence; all operators associate to the left. *)
Definition precedence (o : coperator) : nat := match o with Add | Sub => 1 | Mul | Div => 2 | Pow => 3 end.
Definition top (e : cexp) : nat := match e with EBin _ _ o _ => precedence o | _ => 4 end.
Definition all_space (s : str) : Prop := forallb is_whitespace s = true.
Definition all_digits (s : str) : Prop := s <> [] /\ forallb is_digit s = true.
Fixpoint well_formed (e : cexp) : Prop :=
  match e with
  | ENum space digits => all_space space /\ all_digits digits
  | EPar space e space' => all_space space /\ well_formed e /\ all_space space'
  | EBin l space o r => well_formed l /\ all_space space /\ well_formed r /\ precedence o <= top l /\ precedence o < top r
  end.
(** The parentheses the program can evaluate: no space after an opening one, no double ones. *)
Fixpoint leading_space (e : cexp) : str :=
  match e with ENum s _ => s | EPar s _ _ => s | EBin l _ _ _ => leading_space l end.
Definition is_parenthesized (e : cexp) : Prop := match e with EPar _ _ _ => True | _ => False end.
Fixpoint plain_groups (e : cexp) : Prop :=
  match e with
  | ENum _ _ => True
  | EPar _ e _ => plain_groups e /\ leading_space e = [] /\ ~ is_parenthesized e
  | EBin l _ _ r => plain_groups l /\ plain_groups r
  end.

(** Values: integers of 64 bits, or the first failure from left to right, operands first. *)
Inductive outcome := Value (z : Z) | Failure (k : eval_kind).
Definition in_i64 (z : Z) : Prop := (-9223372036854775808 <= z <= 9223372036854775807)%Z.
Fixpoint decimal (acc : Z) (s : str) : Z :=
  match s with [] => acc | c :: s => decimal (10 * acc + (Z.of_N c - 48)) s end.
(** Operators on integers; [None]: undefined. *)
Definition exact (o : coperator) (a b : Z) : option Z :=
  match o with
  | Add => Some (a + b)
  | Sub => Some (a - b)
  | Mul => Some (a * b)
  | Div => if b =? 0 then None else Some (Z.quot a b)
  | Pow => if (0 <=? b) && (b <=? 4294967295) then Some (a ^ b) else None
  end%Z.
Definition complaint (o : coperator) : eval_kind :=
  match o with Add | Mul | Pow => EOverflow | Sub => EUnderflow | Div => EDivideByZero end.
Inductive value_of : cexp -> outcome -> Prop :=
| value_num s d : in_i64 (decimal 0 d) -> value_of (ENum s d) (Value (decimal 0 d))
| value_num_big s d : ~ in_i64 (decimal 0 d) -> value_of (ENum s d) (Failure EBadNumber)
| value_par s e s' v : value_of e v -> value_of (EPar s e s') v
| value_bin l s o r a b z : value_of l (Value a) -> value_of r (Value b) -> exact o a b = Some z -> in_i64 z ->
    value_of (EBin l s o r) (Value z)
| value_bin_bad l s o r a b : value_of l (Value a) -> value_of r (Value b) ->
    (forall z, exact o a b = Some z -> ~ in_i64 z) -> value_of (EBin l s o r) (Failure (complaint o))
| value_left l s o r k : value_of l (Failure k) -> value_of (EBin l s o r) (Failure k)
| value_right l s o r a k : value_of l (Value a) -> value_of r (Failure k) -> value_of (EBin l s o r) (Failure k).
(** The program's answer says so. *)
Definition says (r : evaluation) (v : outcome) : Prop :=
  match v with Value z => r = EvOk z | Failure k => exists sp, r = EvErr sp k end.

(** ** The results of any text: one for each top-level node, evaluated from left to right. *)
(** A 64-bit integer in decimal, with or without a sign. *)
Inductive reads : str -> Z -> Prop :=
| reads_plain d : all_digits d -> in_i64 (decimal 0 d) -> reads d (decimal 0 d)
| reads_plus d : all_digits d -> in_i64 (decimal 0 d) -> reads (43%N :: d) (decimal 0 d)
| reads_minus d : all_digits d -> in_i64 (- decimal 0 d) -> reads (45%N :: d) (- decimal 0 d)%Z.
Definition operator_of (k : csyntax) : option coperator :=
  match k with CPlus => Some Add | CMinus => Some Sub | CMul => Some Mul | CDiv => Some Div | CPow => Some Pow | _ => None end.
Definition is_error (r : evaluation) : Prop := exists sp k, r = EvErr sp k.
Definition is_node (s : shape csyntax) : bool := let 'Sh _ _ kids := s in match kids with [] => false | _ => true end.
(** [evaluates s r]: the node [s] of the tree of [source] evaluates to [r].  A group is its first child; an
    operation is its children that are nodes: an operand, then pairs of an operator and an operand.
    [continues sp z xs r]: the operators [xs] after a value [z], in an operation at [sp]. *)
Inductive evaluates (source : str) : shape csyntax -> evaluation -> Prop :=
| ans_group_empty sp : evaluates source (Sh CGroup sp []) (EvErr sp (EMissing CNumber))
| ans_group sp k ks r : evaluates source k r -> evaluates source (Sh CGroup sp (k :: ks)) r
| ans_number sp kids d z : part source (s_start sp) (s_end sp) d -> reads d z -> evaluates source (Sh CNumber sp kids) (EvOk z)
| ans_bad_number sp kids d : part source (s_start sp) (s_end sp) d -> (forall z, ~ reads d z) ->
    evaluates source (Sh CNumber sp kids) (EvErr sp EBadNumber)
| ans_empty sp kids : filter is_node kids = [] -> evaluates source (Sh COperation sp kids) (EvErr sp (EMissing CNumber))
| ans_first sp kids x xs r : filter is_node kids = x :: xs -> evaluates source x r -> is_error r ->
    evaluates source (Sh COperation sp kids) r
| ans_operation sp kids x xs z r : filter is_node kids = x :: xs -> evaluates source x (EvOk z) -> continues source sp z xs r ->
    evaluates source (Sh COperation sp kids) r
| ans_other k sp kids : ~ In k [CGroup; CNumber; COperation] -> evaluates source (Sh k sp kids) (EvErr sp (EExpected CNumber k))
with continues (source : str) : span -> Z -> list (shape csyntax) -> evaluation -> Prop :=
| continues_end sp z : continues source sp z [] (EvOk z)
| continues_no_operator sp z d sd k sk kk ks xs : operator_of k = None ->
    continues source sp z (Sh d sd (Sh k sk kk :: ks) :: xs) (EvErr sp (EUnexpectedOperator k))
| continues_missing sp z d sd k sk kk ks o : operator_of k = Some o ->
    continues source sp z [Sh d sd (Sh k sk kk :: ks)] (EvErr sp (EMissing CNumber))
| continues_operand sp z d sd k sk kk ks o x xs r : operator_of k = Some o -> evaluates source x r -> is_error r ->
    continues source sp z (Sh d sd (Sh k sk kk :: ks) :: x :: xs) r
| continues_fails sp z d sd k sk kk ks o x xs b : operator_of k = Some o -> evaluates source x (EvOk b) ->
    (forall z', exact o z b = Some z' -> ~ in_i64 z') ->
    continues source sp z (Sh d sd (Sh k sk kk :: ks) :: x :: xs)
      (EvErr (Span (N.min (s_start sk) (s_start sp)) (N.max (s_end sk) (s_end sp))) (complaint o))
| continues_next sp z d sd k sk kk ks o x xs b z' r : operator_of k = Some o -> evaluates source x (EvOk b) -> exact o z b = Some z' -> in_i64 z' ->
    continues source sp z' xs r -> continues source sp z (Sh d sd (Sh k sk kk :: ks) :: x :: xs) r.
