(** The alternate [Debug] text ([{:#?}], as [dbg!] uses it) of trees, nodes and spans, with the helpers of core::fmt::builders that it goes through.
    No proofs.  A value that is formatted makes a sequence of [write_str] calls: a list of pieces. *)
Set Implicit Arguments.
From Coq Require Import Strings.String.
From Verif Require Import Base Index Tree Builder Hist Node Iter Print Render.

(** [str::split_inclusive('\n')]: the lines, each with its newline; the last may have none.  [cur]: the line so far. *)
Fixpoint lines_of (cur s : bytes) : list bytes :=
  match s with
  | [] => match cur with [] => [] | _ => [cur] end
  | c :: s => if (c =? 10)%N then (cur ++ [c]) :: lines_of [] s else lines_of (cur ++ [c]) s
  end.
Fixpoint ends_with_newline (s : bytes) : bool :=
  match s with [] => false | [c] => (c =? 10)%N | _ :: s => ends_with_newline s end.
(** core::fmt::builders, [PadAdapter::write_str]: four spaces in front of a line that begins at the start of a line. *)
Fixpoint pad_lines (on_newline : bool) (ls : list bytes) : list bytes * bool :=
  match ls with
  | [] => ([], on_newline)
  | l :: ls =>
    let (ps, e) := pad_lines (ends_with_newline l) ls in
    ((if on_newline then [lit_bytes "    "] else []) ++ l :: ps, e)
  end.
Definition pad_write (on_newline : bool) (s : bytes) : list bytes * bool := pad_lines on_newline (lines_of [] s).
(** The writes that come out of the adapter. *)
Fixpoint pad (on_newline : bool) (ps : list bytes) : list bytes :=
  match ps with
  | [] => []
  | p :: ps => let (out, e) := pad_write on_newline p in out ++ pad e ps
  end.
(** [PadAdapterState]'s default is [on_newline: true]; a new one is made for every field and entry. *)
Definition padded (ps : list bytes) : list bytes := pad true ps.

(** [DebugTuple], alternate: [field] for each, [finish]. *)
Definition tuple_pretty (name : bytes) (fields : list (list bytes)) : list bytes :=
  name ::
  match fields with
  | [] => []
  | _ => (lit_bytes "(" ++ newline) :: concat (map (fun v => padded (v ++ [lit_bytes "," ++ newline])) fields) ++ [lit_bytes ")"]
  end.
(** [DebugStruct], alternate. *)
Definition struct_pretty (name : bytes) (fields : list (bytes * list bytes)) : list bytes :=
  name ::
  match fields with
  | [] => []
  | _ => (lit_bytes " {" ++ newline) :: concat (map (fun f => padded (fst f :: lit_bytes ": " :: snd f ++ [lit_bytes "," ++ newline])) fields) ++ [lit_bytes "}"]
  end.
(** [DebugList], alternate. *)
Definition list_pretty (entries : list (list bytes)) : list bytes :=
  lit_bytes "[" ::
  match entries with
  | [] => []
  | _ => newline :: concat (map (fun v => padded (v ++ [lit_bytes "," ++ newline])) entries)
  end ++ [lit_bytes "]"].

(** src/span.rs lines 177-185. *)
Definition span_pretty (F : flavor) (sp : span) : list bytes := tuple_pretty [] [[index_debug F (s_start sp)]; [index_debug F (s_end sp)]].
(** src/node/node_impl.rs lines 559-570; [debug]: the writes of the value's own [Debug], with the same formatter. *)
Definition node_pretty {T} (F : flavor) (debug : T -> list bytes) (n : T * span) : list bytes :=
  struct_pretty (lit_bytes "Node") [(lit_bytes "data", debug (fst n)); (lit_bytes "span", span_pretty F (snd n))].
(** src/tree.rs lines 607-630. *)
Definition tree_pretty {T} (F : flavor) (debug : T -> list bytes) (t : tree T) : result (list bytes) :=
  match debug_tree F t with
  | Ok l => Ok (tuple_pretty (lit_bytes "Tree")
                  [list_pretty (map (fun e => tuple_pretty [] [[signed (fst e)]; node_pretty F debug (snd e)]) l)])
  | Err e => Err e
  | Diverge => Diverge
  end.
