(** Strings as the example programs use them: [str] as its list of code points, with byte positions.
    No proofs. *)
Set Implicit Arguments.
From Verif Require Import Base.

(** A [char]: its code point.  A [str]: its characters in order. *)
Notation char := N (only parsing).
Notation str := (list N) (only parsing).

(** [char::len_utf8]. *)
Definition len_utf8 (c : char) : N :=
  if (c <? 128)%N then 1 else if (c <? 2048)%N then 2 else if (c <? 65536)%N then 3 else 4.
(** [str::len]: bytes. *)
Definition str_len (s : str) : N := fold_right (fun c n => len_utf8 c + n)%N 0%N s.

(** [char::is_whitespace]: the Unicode property White_Space. *)
Definition is_whitespace (c : char) : bool :=
  ((9 <=? c) && (c <=? 13) || (c =? 32) || (c =? 133) || (c =? 160) || (c =? 5760) ||
   (8192 <=? c) && (c <=? 8202) || (c =? 8232) || (c =? 8233) || (c =? 8239) || (c =? 8287) || (c =? 12288))%N.
(** [char::is_ascii_digit], and the pattern ['0'..='9']. *)
Definition is_digit (c : char) : bool := ((48 <=? c) && (c <=? 57))%N.

(** [str::char_indices], from byte position [o] on. *)
Fixpoint char_indices (o : N) (s : str) : list (N * char) :=
  match s with
  | [] => []
  | c :: s => (o, c) :: char_indices (o + len_utf8 c)%N s
  end.

(** [s.get(k..)]: [None] when [k] is past the end or inside a character. *)
Fixpoint str_from (s : str) (k : N) : option str :=
  if (k =? 0)%N then Some s
  else match s with
       | [] => None
       | c :: s => if (k <? len_utf8 c)%N then None else str_from s (k - len_utf8 c)%N
       end.
(** [s.get(..k)]. *)
Fixpoint str_to (s : str) (k : N) : option str :=
  if (k =? 0)%N then Some []
  else match s with
       | [] => None
       | c :: s =>
         if (k <? len_utf8 c)%N then None
         else match str_to s (k - len_utf8 c)%N with Some r => Some (c :: r) | None => None end
       end.
(** [s.get(a..b)]; [&s[a..b]] panics where this is [None]. *)
Definition str_get (s : str) (r : N * N) : option str :=
  let (a, b) := r in
  if (b <? a)%N then None
  else match str_from s a with Some s => str_to s (b - a)%N | None => None end.

(** [str::parse::<i64>]: an optional sign and at least one digit; [None] for any error. *)
Definition i64_min : Z := (-9223372036854775808)%Z.
Definition i64_max : Z := 9223372036854775807%Z.
Definition i64_check (z : Z) : option Z := if ((i64_min <=? z) && (z <=? i64_max))%Z then Some z else None.
Fixpoint digits_value (acc : Z) (s : str) : option Z :=
  match s with
  | [] => Some acc
  | c :: s => if is_digit c then digits_value (10 * acc + Z.of_N (c - 48)) s else None
  end.
Definition parse_i64 (s : str) : option Z :=
  let '(sign, ds) := match s with
                     | 43%N :: ds => (1%Z, ds)
                     | 45%N :: ds => ((-1)%Z, ds)
                     | ds => (1%Z, ds)
                     end in
  match ds with
  | [] => None
  | _ => match digits_value 0 ds with Some v => i64_check (sign * v) | None => None end
  end.
