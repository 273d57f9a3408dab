(** Specification of characters and texts: Unicode's white space, ASCII digits and letters, UTF-8. *)
Set Implicit Arguments.
From Coq Require Import List NArith.
Import ListNotations.
From Verif Require Import Text.

(** The 25 code points with the property White_Space. *)
Definition white_space : list N :=
  [9; 10; 11; 12; 13; 32; 133; 160; 5760; 8192; 8193; 8194; 8195; 8196; 8197; 8198; 8199; 8200; 8201; 8202; 8232; 8233; 8239; 8287; 12288]%N.
Definition digits : list N := [48; 49; 50; 51; 52; 53; 54; 55; 56; 57]%N.
Definition small_letters : list N :=
  [97; 98; 99; 100; 101; 102; 103; 104; 105; 106; 107; 108; 109; 110; 111; 112; 113; 114; 115; 116; 117; 118; 119; 120; 121; 122]%N.
Definition capital_letters : list N := map (fun c => c - 32)%N small_letters.

(** UTF-8: the bytes of a code point below 0x110000. *)
Definition utf8 (c : char) : list N :=
  if (c <=? 0x7F)%N then [c]
  else if (c <=? 0x7FF)%N then [0xC0 + c / 64; 0x80 + c mod 64]%N
  else if (c <=? 0xFFFF)%N then [0xE0 + c / 4096; 0x80 + (c / 64) mod 64; 0x80 + c mod 64]%N
  else [0xF0 + c / 262144; 0x80 + (c / 4096) mod 64; 0x80 + (c / 64) mod 64; 0x80 + c mod 64]%N.
Definition bytes (s : str) : list N := flat_map utf8 s.
Definition byte_len (s : str) : N := N.of_nat (length (bytes s)).
(** [d] is the part of [s] from byte [a] to byte [b], both between characters. *)
Definition part (s : str) (a b : N) (d : str) : Prop :=
  exists before after, s = before ++ d ++ after /\ a = byte_len before /\ b = byte_len (before ++ d).
(** The characters of a text with the byte each starts at. *)
Inductive positions : N -> str -> list (N * char) -> Prop :=
| positions_nil a : positions a [] []
| positions_cons a c s l : positions (a + byte_len [c])%N s l -> positions a (c :: s) ((a, c) :: l).
