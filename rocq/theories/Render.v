(** The bytes that src/print.rs writes, the [Debug] text of trees and the [Display] text of errors.
    No proofs.  Text is a list of UTF-8 bytes. *)
Set Implicit Arguments.
From Coq Require Import Strings.String Strings.Ascii.
From Verif Require Import Base Pointer Index Tree Builder Hist Node Iter Print.

Notation bytes := (list N) (only parsing).

(** The bytes of a string literal in the source. *)
Definition lit_bytes (s : string) : bytes := map N_of_ascii (list_ascii_of_string s).

(** [Display] of an unsigned integer in the standard library: decimal digits, no sign, no padding. *)
Fixpoint digits (fuel : nat) (n : N) (acc : bytes) : bytes :=
  match fuel with
  | O => acc
  | S fuel =>
    let acc := (48 + n mod 10)%N :: acc in
    if (n <? 10)%N then acc else digits fuel (n / 10)%N acc
  end.
Definition decimal (n : N) : bytes := digits (S (N.size_nat n)) n [].

(** src/span.rs lines 167-175, [Display for Span]: the writes it makes. *)
Definition span_display (sp : span) : list bytes :=
  [decimal (s_start sp); lit_bytes ".."; decimal (s_end sp)].

(** The newline byte. *)
Definition newline : bytes := [10%N].

(** src/print.rs lines 146-153: the writes of one [writeln!].  [{:n$}] of the empty string writes [n]
    spaces one at a time.  [debug] is the value's own [Debug] text, [quote] that of a [str], both given
    by code outside the crate. *)
Definition line_writes {T X} (debug : T -> bytes) (quote : X -> bytes) (ln : line T X) : list bytes :=
  repeat (lit_bytes " ") (Z.to_nat (ln_indent ln)) ++
  debug (ln_value ln) :: lit_bytes "@" :: span_display (ln_span ln) ++
  match ln_tail ln with
  | TNone => [newline]
  | TText x => [lit_bytes " "; quote x; newline]
  | TPlus => [lit_bytes " +" ++ newline]
  end.

(** [std::io::Write::write_fmt]: [write_all] of each piece, stopping at the first error.  The sink is
    any state [W] with its own [write_all]; [true] is [Ok]. *)
Fixpoint write_pieces {W} (write_all : W -> bytes -> W * bool) (w : W) (ps : list bytes) : W * bool :=
  match ps with
  | [] => (w, true)
  | p :: ps =>
    let '(w, ok) := write_all w p in
    if ok then write_pieces write_all w ps else (w, false)
  end.

(** How [print] ends: [Ok(())], [Err(_)] from the sink, the panic of [format_args!] for a width beyond
    the toolchain's limit, or (ruled out by the theorems) a walk that does not end. *)
Inductive ending := Printed | WriteFailed | WidthPanic | Stuck.

(** A width given at run time ([{:n$}]) is limited to [u16::MAX] from Rust 1.87 on ([Some 65535]); before,
    it is not ([None]).  The limit is checked before anything of the line is written. *)
Definition width_ok (limit : option N) (n : Z) : bool :=
  match limit with None => true | Some m => (n <=? Z.of_N m)%Z end.

(** src/print.rs lines 142-156, [print_with_lookup]: the loop, with the sink. *)
Fixpoint print_loop {T X W} (fuel : nat) (F : flavor) (ns : list (links T)) (source : span -> option X)
  (debug : T -> bytes) (quote : X -> bytes) (limit : option N) (write_all : W -> bytes -> W * bool)
  (st : walk_it) (w : W) : W * ending :=
  match fuel with
  | O => (w, Stuck)
  | S fuel =>
    match walk_depths_next F ns st with
    | Ok (st, Some x) =>
        let ln := print_line source x in
        if width_ok limit (ln_indent ln) then
          match write_pieces write_all w (line_writes debug quote ln) with
          | (w, true) => print_loop fuel F ns source debug quote limit write_all st w
          | (w, false) => (w, WriteFailed)
          end
        else (w, WidthPanic)
    | Ok (_, None) => (w, Printed)
    | Err _ | Diverge => (w, Stuck)
    end
  end.
(** lines 132-157.  The fuel is enough for a walk that yields each node once. *)
Definition print_to {T X W} (F : flavor) (t : tree T) (source : span -> option X)
  (debug : T -> bytes) (quote : X -> bytes) (limit : option N) (write_all : W -> bytes -> W * bool) (w : W)
  : W * ending :=
  print_loop (S (tree_len t)) F (t_nodes t) source debug quote limit write_all (tree_walk t) w.

(** Sinks of the standard library: a [Vec<u8>], and a [&mut [u8]] with room for [n] bytes, of which
    [write_all] fills what is left and then fails. *)
Definition vec_write_all (w p : bytes) : bytes * bool := (w ++ p, true).
Definition slice_write_all (w : bytes * nat) (p : bytes) : bytes * nat * bool :=
  let '(done, room) := w in
  (done ++ firstn room p, room - length p, length p <=? room).

(** ** [Debug] of trees, compact form ([{:?}]; [{:#?}] is in Pretty.v) *)

(** [Debug] of an index: an integer, or the derived name of [Empty] (src/empty.rs line 16). *)
Definition index_debug (F : flavor) (i : N) : bytes :=
  match fl_index F with IxEmpty => lit_bytes "Empty" | _ => decimal i end.
(** src/span.rs lines 177-185: as the pair of its ends. *)
Definition span_debug (F : flavor) (sp : span) : bytes :=
  lit_bytes "(" ++ index_debug F (s_start sp) ++ lit_bytes ", " ++ index_debug F (s_end sp) ++ lit_bytes ")".
(** src/node/node_impl.rs lines 559-570: [debug_struct("Node")] with two fields. *)
Definition node_debug {T} (F : flavor) (debug : T -> bytes) (n : T * span) : bytes :=
  lit_bytes "Node { data: " ++ debug (fst n) ++ lit_bytes ", span: " ++ span_debug F (snd n) ++ lit_bytes " }".
(** [Display] and [Debug] of a signed integer in the standard library. *)
Definition signed (z : Z) : bytes := if (z <? 0)%Z then lit_bytes "-" ++ decimal (Z.to_N (- z)) else decimal (Z.to_N z).
(** src/tree.rs line 625: an entry, the pair of a depth ([isize]) and a node;
    [debug_list] separates entries by a comma and a space. *)
Definition entry_debug {T} (F : flavor) (debug : T -> bytes) (e : Z * (T * span)) : bytes :=
  lit_bytes "(" ++ signed (fst e) ++ lit_bytes ", " ++ node_debug F debug (snd e) ++ lit_bytes ")".
Fixpoint list_debug (l : list bytes) : bytes :=
  match l with
  | [] => []
  | [x] => x
  | x :: l => x ++ lit_bytes ", " ++ list_debug l
  end.
(** src/tree.rs lines 607-630: [debug_tuple("Tree")] around the list. *)
Definition tree_debug {T} (F : flavor) (debug : T -> bytes) (t : tree T) : result bytes :=
  match debug_tree F t with
  | Ok l => Ok (lit_bytes "Tree([" ++ list_debug (map (entry_debug F debug) l) ++ lit_bytes "])")
  | Err e => Err e
  | Diverge => Diverge
  end.

(** ** [Display] of errors: src/error.rs lines 145-173; [flavor] is the text of the storage's own error. *)
Definition error_display (flavor : bytes) (e : error) : bytes :=
  match e with
  | CloseError => lit_bytes "no node being built"
  | BuildError => lit_bytes "tree is currently being built"
  | CloseAtError => lit_bytes "trying to close a node which is not a sibling of the checkpoint being closed"
  | Overflow => lit_bytes "numerical overflow"
  | MissingNode p => lit_bytes "missing node with id `" ++ decimal (N.of_nat p) ++ lit_bytes "`"
  | FlavorError => flavor
  end.
