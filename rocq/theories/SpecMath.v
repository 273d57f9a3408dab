(** Specification for examples/math.rs: its lexical grammar, its syntax trees without a builder. *)
Set Implicit Arguments.
From Verif Require Import Base Text ClientMath SpecProgram.

Notation mtoken := (msyntax * N)%type.
Definition leaf (t : mtoken) : gtree msyntax := GTok (fst t) (snd t).

(** ** Tokens and the text they stand for. *)
Definition number_char (c : char) : bool := is_digit c || (c =? 46)%N.
Definition other_char (c : char) : bool :=
  negb (is_whitespace c) && negb (is_digit c) && negb (existsb (N.eqb c) [43; 45; 47; 42]%N).
Inductive lexeme : msyntax -> str -> Prop :=
| lx_space c s : is_whitespace c = true -> forallb is_whitespace s = true -> lexeme MWhitespace (c :: s)
| lx_add : lexeme MAdd [43%N]
| lx_sub : lexeme MSub [45%N]
| lx_div : lexeme MDiv [47%N]
| lx_mul : lexeme MMul [42%N]
| lx_number c s : is_digit c = true -> forallb number_char s = true -> lexeme MNumber (c :: s)
| lx_error c s : other_char c = true -> forallb (fun c => negb (is_whitespace c)) s = true -> lexeme MError (c :: s).
(** What a lexeme is not followed by: it is as long as it can be. *)
Definition ends (k : msyntax) (rest : str) : Prop :=
  match rest with
  | [] => True
  | c :: _ =>
    match k with
    | MWhitespace => is_whitespace c = false
    | MNumber => number_char c = false
    | MError => is_whitespace c = true
    | _ => True
    end
  end.
Inductive lexes : str -> list mtoken -> Prop :=
| lexes_nil : lexes [] []
| lexes_cons k s rest ts : lexeme k s -> ends k rest -> lexes rest ts -> lexes (s ++ rest) ((k, str_len s) :: ts).

(** ** The grammar: which trees the parser reads from a list of tokens, and what it leaves. *)
Definition blank (t : mtoken) : Prop := fst t = MWhitespace.
Definition not_blank (ts : list mtoken) : Prop := forall t r, ts = t :: r -> ~ blank t.

Inductive value : list mtoken -> list (gtree msyntax) -> list mtoken -> Prop :=
| value_number ws len rest : Forall blank ws ->
    value (ws ++ (MNumber, len) :: rest) (map leaf ws ++ [GTok MNumber len]) rest
| value_other ws t rest : Forall blank ws -> ~ blank t -> fst t <> MNumber ->
    value (ws ++ t :: rest) (map leaf ws ++ [GNode MError [leaf t]]) rest
| value_end ws : Forall blank ws ->
    value ws (map leaf ws ++ [GNode MError []]) [].

(** Operators of one level, associating to the left: everything so far becomes the left operand. *)
Inductive operations (tokens : list msyntax) (next : list mtoken -> list (gtree msyntax) -> list mtoken -> Prop)
  : list (gtree msyntax) -> list mtoken -> list (gtree msyntax) -> list mtoken -> Prop :=
| operations_stop acc ws rest : Forall blank ws -> not_blank rest ->
    (forall t r, rest = t :: r -> ~ In (fst t) tokens) ->
    operations tokens next acc (ws ++ rest) (acc ++ map leaf ws) rest
| operations_more acc ws t r1 ts r2 out rest : Forall blank ws -> ~ blank t -> In (fst t) tokens ->
    next r1 ts r2 ->
    operations tokens next [GNode MOperation (acc ++ map leaf ws ++ leaf t :: ts)] r2 out rest ->
    operations tokens next acc (ws ++ t :: r1) out rest.
Definition level_of (tokens : list msyntax) (next : list mtoken -> list (gtree msyntax) -> list mtoken -> Prop)
  (toks : list mtoken) (out : list (gtree msyntax)) (rest : list mtoken) : Prop :=
  exists ts r, next toks ts r /\ operations tokens next ts r out rest.
Definition product_of := level_of [MMul; MDiv] value.
Definition sum_of := level_of [MAdd; MSub] product_of.

(** ** Arithmetic expressions as text, with white space wherever one likes.  Space belongs to what
    follows it, except that space before an addition operator or the end belongs to the product before it. *)
Record operand := Operand { o_space : str; o_number : str }.
Record product := Product { p_first : operand; p_rest : list (str * bool * operand); p_space : str }. (* true: times, false: divided by *)
Record sum := Sum { s_first : product; s_rest : list (bool * product) }.                      (* true: plus, false: minus *)

Definition operand_text (v : operand) : str := o_space v ++ o_number v.
Definition mul_char (b : bool) : char := if b then 42%N else 47%N.
Definition add_char (b : bool) : char := if b then 43%N else 45%N.
Definition product_text (p : product) : str :=
  operand_text (p_first p) ++ flat_map (fun '(ws, b, v) => ws ++ mul_char b :: operand_text v) (p_rest p) ++ p_space p.
Definition sum_text (s : sum) : str :=
  product_text (s_first s) ++ flat_map (fun '(b, p) => add_char b :: product_text p) (s_rest s).

Definition spaces (s : str) : Prop := forallb is_whitespace s = true.
Definition operand_ok (v : operand) : Prop :=
  spaces (o_space v) /\ exists c s, o_number v = c :: s /\ is_digit c = true /\ forallb number_char s = true.
Definition product_ok (p : product) : Prop :=
  operand_ok (p_first p) /\ Forall (fun '(ws, _, v) => spaces ws /\ operand_ok v) (p_rest p) /\ spaces (p_space p).
Definition sum_ok (s : sum) : Prop :=
  product_ok (s_first s) /\ Forall (fun '(_, p) => product_ok p) (s_rest s).

(** Their trees: operations associate to the left. *)
Definition space_tree (s : str) : list (gtree msyntax) :=
  match s with [] => [] | _ => [GTok MWhitespace (str_len s)] end.
Definition operand_tree (v : operand) : list (gtree msyntax) := space_tree (o_space v) ++ [GTok MNumber (str_len (o_number v))].
Definition product_tree (p : product) : list (gtree msyntax) :=
  fold_left (fun acc '(ws, b, v) =>
      [GNode MOperation (acc ++ space_tree ws ++ GTok (if b : bool then MMul else MDiv) 1 :: operand_tree v)])
    (p_rest p) (operand_tree (p_first p)) ++ space_tree (p_space p).
Definition sum_tree (s : sum) : list (gtree msyntax) :=
  fold_left (fun acc '(b, p) =>
      [GNode MOperation (acc ++ GTok (if b : bool then MAdd else MSub) 1 :: product_tree p)])
    (s_rest s) (product_tree (s_first s)).
