# Formal model of syntree in Rocq (Coq 8.16.1)

Everything lives in `rocq/theories` (logical name `Verif`).  Properties: `properties.jsonl`;
which theorems prove which property: `MANIFEST.json`; wrong programs tried: `seeded/LOG.jsonl`.

## Trusted base

* Coq's kernel.  No axiom of ours; every property theorem is followed by `Print Assumptions`, and
  each prints `Closed under the global context`.  (vcheck lists seven `Coq.ssr.ssrunder` names: they
  are fields of a module type in the standard library that gets loaded with it; no theorem here
  depends on them, as `Print Assumptions` shows.)
* That the model files say what the Rust code says (table below; every definition cites the lines
  it transcribes and says where it simplifies).  As evidence, `Conform.v` runs every example in the
  crate's documentation, its integration tests and its small example programs on the model and
  compares with what they assert (tests, not proofs).
* That the specification files (`Spec*.v`) say what the English property says.

## Layers

1. **Model** (`Base Pointer Index Tree Builder Hist Node Iter Query Edit Print Clone`, no proofs):
   function-by-function transcription of `/repo/src`.  The tree is a growing list of link records;
   `&mut self` functions return the new state together with the result, *also on the error path*, so
   partial updates made before a `?` are visible.  `Rc<Cell<..>>` checkpoints are cells of an explicit
   heap, so that sharing and aliasing are modelled.  Loops without a structural argument take fuel
   and return the explicit value `Diverge` (never a normal-looking value) when it runs out; theorems
   show they do not.  `Hist.v` turns the ten public calls of the builder into a language of histories
   (`op`), with every result recorded (`out`).
2. **Specification** (`Spec*.v`): plain rose trees.  `Spec.v` gives the document a history describes
   (a zipper of rose trees and a list of checkpoint positions), pre-order, event traces, observation
   of iterators; it knows nothing about link tables, sibling pointers or heaps.  The other `Spec*`
   files define the vocabulary of single properties (tiling of spans, alikeness of documents, the
   contract of binary search, edits, ...).
3. **Proofs**: `Rep Marks Refine` (the code refines the document machine, one lemma per primitive
   edit of the table), `TreeRep Walk WalkTree WalkThms Nav Skip` (iterators and navigation on a table
   that represents a document), `DocInv Layout Place Local Forward Range Modify Copy` (invariants of
   documents), `AllHist AllWalk Stack` (invariants that hold in *all* histories, misuse of checkpoints
   included: a rational-valued ghost order on the nodes makes every loop end), `Opaque Relabel
   Spanless Sim` (simulations between runs).
4. **Property theorems** (`Props*.v`): `Cnn_...`, each followed by `Print Assumptions` and by an
   `Example` showing that a concrete, non-trivial case meets its hypotheses.  `_partial` marks a
   theorem that proves part of its property, `_refuted` a concrete history on which the claim, as the
   documentation states it, is false of the code.

## What is modelled

| source | model | simplifications |
|---|---|---|
| `pointer.rs` | `Pointer.v` | the six widths with explicit wrap-around of `get`, 32/64-bit `usize` |
| `index.rs`, `empty.rs`, `span.rs` | `Index.v` | `u32`, `usize`, `Empty` as `N` with the range explicit; their texts in `Render.v` |
| `links.rs`, storage part of `tree.rs`, `flavor.rs` | `Tree.v`, `Base.v` | a flavor is a record (width, index type, target, storages); storages are `Vec`, `EmptyVec` and one that fails (C40 switches failure on and off per call) |
| `builder.rs`, `builder/checkpoint.rs` | `Builder.v`, `Hist.v`, `Clone.v`, `Mix.v`, `Family.v` | `open/open_with/close/token/token_empty/token_with/checkpoint/close_at/close_at_with/cursor/set_cursor/build/clone`; values are `Copy`, modelled as values of any type |
| `node_impl.rs`, node accessors of `tree.rs` | `Node.v` | a `Node` is an index with its record; identity `ptr::eq` not needed |
| `children, siblings, ancestors, walk, walk_events, skip_tokens` | `Iter.v` | `next`/`next_back` as state functions |
| `tree.rs` range queries, equality | `Query.v` | the binary search is a parameter that meets its documented contract; the std one is shown to meet it |
| `edit.rs` | `Edit.v` | the `HashMap` of removals as a finite map |
| `print.rs`, `macros.rs` | `Print.v`, `Render.v` (bytes) | output lines as records; macro expansion as a function from literals to calls |
| derived `Ord` and `Hash` of pointers, spans, `Empty` | `Compare.v` | a hash is the list of values fed to the hasher |
| `error.rs` | `Base.v`, `Render.v` | variants; the `Display` texts in `Render.v` |
| `Debug` of trees and `print_with_source` | `Print.v`, `Render.v` | entries and lines in `Print.v`, the bytes in `Render.v`; `{:#?}` in `Pretty.v` |
| `macros.rs` (`tree!`, `tree_with!`) | `Macro.v` (arms), `Print.v` (`lit`, `expand`: the calls of a literal) | expressions: one token, or a parenthesised list of expressions |
| `flavor.rs` (`flavor!`) | `MacroFlavor.v` | what is between the braces, as tokens; a type is one token |
| `Tree::capacity`, `Storage for Vec` | `Capacity.v` | any allocator within the contract of `Vec`; running out of memory aborts |
| `Debug`/`Display` of pointers, spans, errors, events; `Error::source` | `Labels.v` | no width or padding flags |
| `Node::replace` between iterator calls | `Live.v` | values are shared cells; one iterator at a time |
| `examples/synthetic_strings.rs` | `ClientSynth.v`, `Text.v` | the `HashMap` is a list; reading the arguments is not modelled |
| `benches/comparisons.rs` (the syntree functions, flavors, sizes, `generate_random`) | `ClientBench.v` | any generator; the rowan functions and criterion's timing are not modelled |
| `examples/math.rs`, `examples/calculator` (with the parts of `str` and `i64` they use) | `Text.v`, `ClientMath.v`, `ClientCalc.v` | characters are code points with UTF-8 lengths; printing of results as data |

Flavors: the `flavor!` macro (flavor.rs lines 79-108) parses `type Storage = ..` and then ignores it (line 98 always uses `Vec`), so every flavor that the
documented macro can make has `Vec` links and either `Vec` or `EmptyVec` indexes: that is `vec_flavor` in the theorems. Hand-written `Flavor` impls with other storages
are the `fl_storage`/`fl_indexes` parameters of the model (C40).

Not modelled: allocation failure (aborts), the `Debug` text of values and strings (parameters in `Render.v`, `Pretty.v`), `Send/Sync` auto traits, doc comments, visibility, names and the syntax of types in `flavor!` (a type is one token in `MacroFlavor.v`), Rust expressions inside `tree!` literals, the `std` feature switches.
Nothing in the crate is concurrent; there is no `unsafe` but `Span`/pointer constructors, covered by C11.

## Plan per property

| id | modelled | proof |
|----|----------|-------|
| C01,C04 | all builder calls, heap of checkpoints | refinement to the document machine over all histories |
| C02 | close, build | stack of open nodes in all histories (`Stack.v`) |
| C03 | checkpoint/close_at vs open/close | a balanced block run by itself and inside a document (`Local.v`); refuted for prefixes with `open_with` |
| C05 | close_at | exactness by refinement; documented "not a sibling" part refuted |
| C06 | checkpoint | simulation between worlds that differ in checkpoints (`Sim.v`) |
| C07,C08 | node navigation | representation of the document by the table; PropsLinks states both directions as iff over nodes |
| C09 | last, next_back | exact characterisation + refutation; PropsLinks: the law that holds for every tree |
| C10 | ids | monotone invariant on the link table |
| C11 | pointer encoding with wrap-around | arithmetic |
| C12 | insert/pointer_new | invariant + exactness of Overflow |
| C13 | all calls | per-call atomicity; refuted for token on pointer overflow |
| C14-C17 | spans | "span = layout" invariant (`Layout.v`) |
| C18 | explicit spans | partial theorems for ordered spans + refutations |
| C19-C23 | WalkEvents, Walk, WithDepths, Inside | induction over the represented document |
| C24 | Children | simulation by a deque, all schedules; PropsLinks: exact law for trees with stale last links |
| C25-C27 | Siblings, Ancestors, SkipTokens, find_preceding | induction over document / ancestor chain |
| C28 | tree equality | injectivity of depth-annotated pre-order |
| C29 | replace | frame lemma, relabelling of histories |
| C30,C31,C44 | node_with_span for any binary search meeting the std contract | sortedness invariant, ancestor chain; refutations; PropsStarts: trees filed by starts answer alike |
| C32,C33 | ChangeSet::modify | relation `edited`, copying, refutations; PropsRemove: single removals characterised |
| C34,C35 | Span, Index | arithmetic |
| C36 | two builders over one heap; Family.v: any number of builders made with `new` or `clone` over one heap | simulation + refutation; PropsFamily.v: the story of each builder (SpecFamily.v) simulated on a builder alone, with checkpoint cells renamed and the cells spoiled by calls outside the story tracked |
| C37 | Empty flavor | runs in two flavors go in step (`Spanless.v`) |
| C38 | all histories incl. misuse | ghost-order invariant (`AllHist.v`, `AllWalk.v`) |
| C39 | print | corollary of the walk |
| C40 | failing storage | faults as part of the history; refutations + partial |
| C41 | tree! as a program generator | induction over literals |
| C42 | all iterators | state lemma |
| C43 | values never inspected | relational simulation (`Opaque.v`) |
| C45 | cursor, placement of nodes | stack invariant, all histories |
| C46 | sizes | counting |
| C47 | Debug entries and printed lines are injective | PropsDebug: depths and values in document order determine a forest |
| C48 | structured builder programs = tree-returning programs (SpecProgram) | induction on programs over documents, then refinement |
| C49 | examples/math.rs as a client (Text, ClientMath), lexical grammar and syntax trees (SpecMath) | every parser function runs a structured program (ClientFacts), then C48; lexer by maximal munch; PropsChars.v: the character tables (`C49_characters`) |
| C50 | examples/calculator lexer, Parser and grammar as clients (Text, ClientCalc); lexical grammar and syntax trees as relations (SpecCalc) | every parser function runs a structured program (CalcParse), then C48; relations shown functional and total |
| C51 | eval of examples/calculator over the Node API (ClientCalc); expressions and their values (SpecCalc) | evaluation of nodes = evaluation of shapes (CalcEval), then by induction on expressions; PropsCalcAll.v: `C51_answers`, every text |
| C52 | node_with_range / node_with_span over builder and modified trees (Query); the keys of tokens from the history (SpecRange.files) | the index list is the filed list (PropsQuery, Modify), then the contract of binary search and induction on the ancestor chain |
| C53 | Mix.v: a list of builders over one heap of checkpoint cells; every call may use every checkpoint | AllMix.v: AllHist's invariant holds with the heap of all cells a builder could have made (`universe`), so any foreign cell in range is covered; a cell out of range gives MissingNode after an ordinary insertion. Theorems in PropsMix.v; PropsShop.v: `C53_independent`, builders that use their own checkpoints behave as if alone |
| C54 | `Render.v`: the writes of `print` piece by piece into any sink, width limit of the toolchain as a parameter, `Debug` text of trees, `Display` of errors; `SpecText.v`: the text of a document, decimal notation | induction over the walk; decoding lemmas (spaces, digits, last at-sign, first newline); nested trees of any depth through C48 |
| C55 | `ClientSynth.v`: lexer, storage, building, evaluation of examples/synthetic_strings; `SpecSynth.v`: words, definitions, printed lines | lexer refines the unique cutting into words; C48 for the calls; children enumeration (C10) and slices (`C49_characters`) for evaluation |
| C56 | Iter.v: `next` and `next_with_depth` work on one state; SpecWalkMix.v asks it in any order and says what is left | PropsWalkMix.v: the run of events still to come is an invariant of every question; `inside` from the middle of it; PropsInside.v: its law at any point of any walk, on events that follow each other (SpecInside.v) |
| C57 | Edit.v as it is | PropsSettle.v (lemmas in Settle.v): what `edited` yields is reproduced by `edited []` except that childless inner nodes count as tokens; that difference is invisible in the table; the table is determined by the document |
| C20 (law) | SpecEvents.v: `follow`, the event after an event from first()/next()/parent() | PropsEvents.v: along the run of the walk the depth stays within isize, so each step is the one the links name; permutation of the Up events with the inner nodes |
| C58 | Edit.v, Node.v, Iter.v, Query.v as they are; SpecModified.v | PropsModified.v: the walk lemmas hold for any table that represents a document (WalkGen.v); a modified document has no wrapped nodes, so every stored last child is current; fuel of find_preceding by subtree sizes |
| C59 | all model files, run twice with two flavors; SpecFlavors.v | PropsFlavors.v: step by step, two flavors give the same state and result or one returns Overflow; the same for documents; the walks of both go through the trace of the same document; modify by induction on the fuel |
| C60 | Compare.v: the derived `Ord`, `Hash`; SpecCompare.v | PropsCompare.v: arithmetic without wrap-around below the width; identifiers by induction on the history; tiling of tokens (C14) |
| C61 | Edit.v, Node.v (`tree_replace`); SpecHistory.v: scripts of edits on trees and on documents | PropsHistory.v: induction on the script; Replaced.v: the table after replace represents the document with the one value changed; naturality of the modify loop in the values, by induction on its steps |
| C62 | as C19, C25 and C58 | PropsCover.v: the contiguous layout of plain documents gives a chain at every position, by mutual induction; order of spans along the walk from `well_ordered` |
| C63 | Iter.v (`walk_events`), Builder.v; SpecReplay.v: the program that replays a walk | PropsReplay.v: the calls are those of a structured program (C48) and of a literal (C41); the layout of the text of a document is the document when it is laid out, and differs in ends only when it comes from modify |
| C64 | `SpecReads` (`reads`, `same_reading`, `obtained`), `AllPlaced`, `AllReads`, `PropsMisuse`: invariants of the link table under every history (no restriction on checkpoints): every node is the first of its parent/of the tree or the next of its prev, and a rational order bounds all first/next chains; `modify_source` needs only first and next of its source. |
| C65 | `SpecShape` (a machine on plain trees with no condition on checkpoints), `Shape` (relation `sim` between the builder's link table and it, kept by every call on top of the invariants of `AllHist`/`AllPlaced`), `PropsShape`. |
| C66 | `PropsShape`: every rule of `SpecShape` only inserts one node (`extends`), composed over histories; carried to trees by C65 and C64_one. |
| C67 | `SpecTour` (named parents, the tour, subsequence), `Tour` (positions of `AllHist` show that named parents enclose; the walk steps follow the tour), `PropsTour`. |
| C68 | `SpecEnds` (the rule for last ones and filed positions, beside `SpecShape`), `Ends` (the builder follows it), `Inside` (last ones stay inside their node), `PropsEnds`. |
| C69 | `SpecShown` (what a walk shows), `PropsShown` (from the tours of C67; the depths shown determine which nodes have children). |
| C70 | `SpecOnward` (places, the climb of a walk, `inside`, the two phases of `find_preceding`, groups of `skip_tokens`), `Onward` (the invariant of a walk from a place), `PropsOnward`. |
| C71 | `SpecAfter` (`look_alike`: what modify can see; `plain_call`; `same_links`), `After` (two runs of `modify` on trees with equal readings, step by step; a tree! literal rebuilt from a reading gives the proper history; links of a modified tree compared, entry by entry, with those of a built one), `PropsAfter`. |
| C72 | `Macro` (the arms of tree!, tried in order, on token trees; expressions are atoms or parenthesised lists), `SpecLiteral` (the documented syntax as a grammar), `Literal` (what the first matching arm sees; exactness by induction over the recursion limit; the calls tell the literal), `PropsLiteral`. |
| C73 | `ClientBench` (benches/comparisons.rs), `SpecBench` (the two trees, strings in turn), `PropsBench`: the loops are structured programs (`ClientFacts`), so C48_any gives the trees and the exact limit; counts through the children and skip_tokens theorems; the random strings by induction over any generator. |
| C74 | `Pretty.v` (core::fmt's `DebugTuple`, `DebugStruct`, `DebugList`, `PadAdapter` as sequences of writes), `SpecPretty.v` (the lines), `PropsPretty.v`: the adapter byte by byte; nested adapters add up; reading by the commas. |
| C75 | `SpecPrinted.v`, `Deep.v` (a climb goes to a reading-ancestor, so it loses at least one level while the depth loses exactly one: depth >= level along the whole tour), `PropsPrinted.v`: the printing theorems of C54 and C74 restated for lists of shown nodes; equality through C71_equal. |
| C76 | `MacroFlavor.v` (a matcher for the subset of `macro_rules!` that the macro uses: all ways to match, the arm is taken if there is exactly one), `SpecMacroFlavor.v`, `PropsMacroFlavor.v`: the ways to match are exactly the calls of the specification, and no call matches twice. |
| C77 | `Capacity.v` (a `Vec` as length and capacity, its operations as the relations of its documentation; as many pushes as the table of the model grows), `PropsCapacity.v`: induction over how the storage came to be, with C10_fresh. |
| C78 | `Labels.v` (texts of the small types), `PropsLabels.v`: C10_fresh and C11 for identifiers, the uniqueness of decimal notation (C54_numbers) for the rest. |
| C79 | `Live.v` (programs that interleave an iterator with `replace`), `SpecLive.v` (`quiet`, `told`), `PropsLive.v`: tables that differ in the cells only give the same steps. |
| C26 (`rfind`) | `SpecSearches.v`, `PropsSearches.v`: `skip_tokens().find` and `.rfind` on children, any predicates and any order of requests, by the invariant of C24 (`holds`). |

## Findings (the documentation is not true of the code)

Each has a `_refuted` theorem with a concrete history: C03, C05 (swallowed checkpoints accepted), C09/C24/C26/C27
(stale `last` after `close_at`), C13 (token refused on a full tree moves the cursor), C18 (`open_with`
span overwritten / not enclosing), C31 (plain and explicit tokens indexed differently, also after `modify`), C32 and
C33 (`modify` loses ends of spans, mishandles last children and several removals), C36 (clones
share checkpoints), C37 (accident with an unusual search), C40 (failing storage: nodes lost, a node its own
parent), C44 (range query answers with a node that does not contain the range), C49 and C51 (the example programs drop
text, misread parentheses), C53 (a change set that removes nothing still changes the tree), C54 (very deep trees make `print` panic on
targets whose format width is 16 bits), C57 (a second `modify` changes the index of a token), C64 and C69 (after a swallowed checkpoint a walk misses nodes, and trees of different size are equal), C70 (`inside()` leaves its node).
Other remarks: `inside()` of `n.walk()` after `n`, when childless, has been taken goes on with the next sibling (C56);
`node_with_range` with an end above `u32::MAX` answers `None` in u32 flavors only (C59); `flavor!` ignores `type Storage`.
