(** Specification for examples/synthetic_strings.rs. *)
Set Implicit Arguments.
From Coq Require Import List NArith.
From Verif Require Import Base Index Tree Builder Text ClientSynth Spec SpecEq.

(** A text is cut into words: runs of white space, of letters, a dollar sign with small letters, and
    anything else up to the next white space; each as long as possible. *)
Inductive word := WSpace | WLetters | WVariable (name : str) | WOther.
Inductive is_word : word -> str -> Prop :=
| word_space c s : is_whitespace c = true -> forallb is_whitespace s = true -> is_word WSpace (c :: s)
| word_letters c s : is_alpha c = true -> forallb is_alpha s = true -> is_word WLetters (c :: s)
| word_variable s : forallb is_lower s = true -> is_word (WVariable s) (36%N :: s)
| word_other c s : is_whitespace c = false -> is_alpha c = false -> c <> 36%N ->
    forallb (fun c => negb (is_whitespace c)) s = true -> is_word WOther (c :: s).
Definition complete (k : word) (rest : str) : Prop :=
  match rest with
  | [] => True
  | c :: _ => match k with
              | WSpace => is_whitespace c = false
              | WLetters => is_alpha c = false
              | WVariable _ => is_lower c = false
              | WOther => is_whitespace c = true
              end
  end.
Inductive words : str -> list (word * str) -> Prop :=
| words_nil : words [] []
| words_cons k s rest ws : is_word k s -> complete k rest -> words rest ws -> words (s ++ rest) ((k, s) :: ws).

(** The definitions made, in order; a later one with the same name counts. *)
Fixpoint defined (defs : list (str * str)) (name : str) : option str :=
  match defs with
  | [] => None
  | (n, v) :: defs => match defined defs name with
                      | Some v => Some v
                      | None => if list_eq_dec N.eq_dec n name then Some v else None
                      end
  end.
Definition store_of (defs : list (str * str)) : ystore := fold_left (fun s d => y_insert s (fst d) (snd d)) defs ystore_new.

(** What is printed: words stand for themselves, variables for their values, numbered together; what is
    neither, or not defined, is an error. *)
Fixpoint evaluated (defs : list (str * str)) (count : nat) (ws : list (word * str)) : list yline :=
  match ws with
  | [] => []
  | (WSpace, _) :: ws => evaluated defs count ws
  | (WLetters, s) :: ws => YValue count s :: evaluated defs (S count) ws
  | (WVariable name, s) :: ws =>
      match defined defs name with
      | Some v => YValue count v :: evaluated defs (S count) ws
      | None => YErrorLine s :: evaluated defs count ws
      end
  | (WOther, s) :: ws => YErrorLine s :: evaluated defs count ws
  end.

(** The tree: a root for each word, where the word is; a defined variable points to its definition. *)
Inductive roots (defs : list (str * str)) : N -> list (word * str) -> list (shape ysyntax) -> Prop :=
| roots_nil p : roots defs p [] []
| roots_cons p k s ws d l :
    match k with
    | WSpace => d = YWhitespace
    | WLetters => d = YLiteral
    | WOther => d = YError
    | WVariable name =>
        match defined defs name with
        | None => d = YError
        | Some v => exists id, d = YSynthetic id /\ nth_error (map snd defs) id = Some v
        end
    end ->
    roots defs (p + str_len s)%N ws l ->
    roots defs p ((k, s) :: ws) (Sh d (Span p (p + str_len s)) [] :: l).
