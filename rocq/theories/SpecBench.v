(** Specification for benches/comparisons.rs: the trees it measures. *)
Set Implicit Arguments.
From Verif Require Import Base Index Tree Builder Hist Spec SpecEq SpecProgram Text ClientBench.

(** The strings one after the other, from the beginning again after the last, [n] in all; none if there are none. *)
Definition in_turn (strings : list str) (n : nat) : list str :=
  match strings with [] => [] | _ => map (fun k => nth (k mod length strings) strings []) (seq 0 n) end.

(** A root with a token for every string; a root with an entry, that has such a token, and a blank for every string. *)
Definition flat_tree (ss : list str) : gtree bsyntax := GNode BRoot (map (fun s => GTok BString (str_len s)) ss).
Definition entry_tree (ss : list str) : gtree bsyntax :=
  GNode BRoot (flat_map (fun s => [GNode BEntry [GTok BString (str_len s)]; GTok BWhitespace 1]) ss).

(** A run with [?] has this tree, in the form the flavor measures it; it has ended with Overflow if and only if there are more nodes than
    the width allows or there is more text than the index type can hold. *)
Definition builds_exactly {T} (F : flavor) (r : result (tree T)) (g : gtree T) : Prop :=
  let gs := measured F [g] in
  (r = Err Overflow <-> (int_max F (fl_width F) < N.of_nat (size g) \/ ix_max F < widths gs)%N) /\
  (r <> Err Overflow -> exists t ops l, r = Ok t /\ builds F ops t /\ document F ops l /\ map erase l = lay_list 0 gs /\ tree_len t = size g).

(** One text begins with another. *)
Definition begins_with (s p : str) : Prop := exists q, s = p ++ q.

(** ** Random strings, from any generator *)
(** A Unicode scalar value: a code point up to U+10FFFF that is not a surrogate (U+D800 to U+DFFF). *)
Definition scalar (c : N) : Prop := (c <= 1114111)%N /\ ~ (55296 <= c <= 57343)%N.
(** The characters kept of the numbers drawn: those that are scalar values and not whitespace, in order. *)
Inductive kept_of : list N -> str -> Prop :=
| ko_nil : kept_of [] []
| ko_keep c vs s : scalar c -> is_whitespace c = false -> kept_of vs s -> kept_of (c :: vs) (c :: s)
| ko_drop c vs s : ~ (scalar c /\ is_whitespace c = false) -> kept_of vs s -> kept_of (c :: vs) s.
(** The numbers a generator gives, one call after the other, and the generator after them. *)
Inductive drawn {R} (next : R -> N * R) : R -> list N -> R -> Prop :=
| dr_nil r : drawn next r [] r
| dr_cons r v r1 vs r2 : next r = (v, r1) -> drawn next r1 vs r2 -> drawn next r (v :: vs) r2.
(** [count] strings from the text [s]: each goes on from the one before with the characters kept of as many numbers as are needed, and no more,
    to reach a length in bytes that is drawn from [min] to below [max] (by remainder). *)
Inductive strings_of {R} (gen_usize next_u32 : R -> N * R) (min max : N) : nat -> R -> str -> list str -> Prop :=
| so_nil r s : strings_of gen_usize next_u32 min max 0 r s []
| so_cons n r s v r1 vs more r2 l :
    gen_usize r = (v, r1) ->
    drawn next_u32 r1 vs r2 -> kept_of vs more ->
    (min + v mod (max - min) <= str_len (s ++ more))%N ->
    (forall vs' x rest more', vs = vs' ++ x :: rest -> kept_of vs' more' -> (str_len (s ++ more') < min + v mod (max - min))%N) ->
    strings_of gen_usize next_u32 min max n r2 (s ++ more) l ->
    strings_of gen_usize next_u32 min max (S n) r s ((s ++ more) :: l).
