(** Specification: what a program sees that replaces values while it iterates. *)
Set Implicit Arguments.
From Verif Require Import Base Tree Node Iter Live.

(** The answers of an iterator in a tree in which nothing is replaced: what comes with the node, and its position. *)
Fixpoint quiet {T X S} (nxt : bool -> list (links T) -> S -> result (S * option (X * node T))) (nodes : list (links T)) (acts : list (act T)) (s : S)
  : result (list (option (X * nat))) :=
  match acts with
  | [] => Ok []
  | Put _ _ :: acts => quiet nxt nodes acts s
  | Go b :: acts =>
      match nxt b nodes s with
      | Ok (s, o) => match quiet nxt nodes acts s with Ok l => Ok (option_map (fun a => (fst a, fst (snd a))) o :: l) | Err e => Err e | Diverge => Diverge end
      | Err e => Err e | Diverge => Diverge
      end
  end.

(** The same answers, each with the value its node has by then: the last one put there, or the first one. *)
Fixpoint told {T X} (vals : nat -> option T) (acts : list (act T)) (items : list (option (X * nat))) : list (sight X T) :=
  match acts with
  | [] => []
  | Put i v :: acts =>
      Was (vals i) :: told (fun j => if Nat.eqb j i then match vals i with Some _ => Some v | None => None end else vals j) acts items
  | Go _ :: acts =>
      match items with
      | [] => []
      | o :: items => Saw (option_map (fun a => (fst a, snd a, vals (snd a))) o) :: told vals acts items
      end
  end.
(** The iterator does not notice. *)
Definition undisturbed {T X S} (nxt : bool -> list (links T) -> S -> result (S * option (X * node T))) : Prop :=
  forall nodes acts s,
    live nxt nodes acts s =
    match quiet nxt nodes acts s with Ok items => Ok (told (value_now nodes) acts items) | Err e => Err e | Diverge => Diverge end.
