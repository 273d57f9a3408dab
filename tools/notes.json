{
 "C01": [
  "proved",
  "For every history of the ten builder calls that uses no swallowed checkpoint (describes; see C05), on any flavor with Vec link storage."
 ],
 "C02": [
  "proved",
  "Both directions, for all histories, including misuse of checkpoints (Vec flavors)."
 ],
 "C03": [
  "partial",
  "Proved for every prefix history after which the innermost open node does not start after the cursor (C03_starts: always so in plain histories), every balanced plain block using only its own checkpoints and never refused for overflow, and every suffix not using the block's checkpoints: same document, spans, cursor, results (identifiers of block nodes shifted by one), equal trees. C03_any_prefix_refuted: after open_with with a span starting after the cursor the claim is false of the code."
 ],
 "C04": [
  "proved",
  "C04_wraps: after any history, with any calls in between that use only this and later checkpoints (this one any number of times), closing the checkpoint at its level puts exactly the siblings added since under the new node. C04_again: a second use wraps the first use's node together with what was added since. C04_same_place: checkpoints with nothing added, opened or closed between them are interchangeable in every later history (misuse included). Use from outer to inner is C05."
 ],
 "C05": [
  "partial",
  "C05_error_partial is the exact characterisation (CloseAtError iff the open node differs from the one at the checkpoint) for every history that has used no swallowed checkpoint; C05_unchanged for every state. The documented extra promise (error when the place was swallowed) never holds: C05_swallowed, C05_swallowed_refuted."
 ],
 "C06": [
  "proved",
  "All histories, including misuse of checkpoints (Vec flavors); handles are renumbered because a history names a checkpoint by its number among all checkpoint calls."
 ],
 "C07": [
  "proved",
  "C07_exactly, C07_roots_exactly and C07_climbs are the claim said of the nodes themselves, with no document in the statement; C07_children / C07_roots say the same against the document."
 ],
 "C08": [
  "proved",
  "C08_mutual and C08_ends are the claim said of the nodes themselves; C08_links gives every link against the document."
 ],
 "C09": [
  "partial",
  "children().rev()/next_back and last() are wrong after a close_at that wrapped the last sibling (C09_last_refuted). C09_last_partial is the exact characterisation: last() (of a node or of the tree) is the last element of children() if and only if the last sibling is `settled`, for every finished history. C09_law_partial says what last() and rev() answer in every case: they see the list given by `sees` (SpecLast.v), the siblings as they were before the wrapping."
 ],
 "C10": [
  "proved",
  "For all histories, including misuse of checkpoints (Vec flavors)."
 ],
 "C11": [
  "proved",
  "All six widths, 32- and 64-bit targets."
 ],
 "C12": [
  "proved",
  "For all histories (Vec flavors). The cursor hypothesis of C12_token holds in every history of values of their Rust types by C35_in_range."
 ],
 "C13": [
  "partial",
  "False of the code in general (C13_refuted: token() of nonzero length on a full tree moves cursor and tree span). C13_unchanged_partial: every other failed call leaves the whole state equal; C13_late_refusal describes the exception exactly."
 ],
 "C14": [
  "proved",
  "Plain histories (plain, SpecSpan.v): open/close/token/token_empty/checkpoint/close_at, including refused calls other than a token refused for lack of pointers (C13)."
 ],
 "C15": [
  "proved",
  "Plain histories, as C14."
 ],
 "C16": [
  "proved",
  "Plain histories, as C14."
 ],
 "C17": [
  "proved",
  "Plain histories, as C14; the source is a list of any symbols."
 ],
 "C18": [
  "partial",
  "C18_given_partial: token_with / close_at_with give exactly the span asked for, in every history. C18_open_with_partial: open_with's node starts at or before the given start and is exact when childless. C18_forward_partial: parents enclose children and siblings are ordered for forward histories. The unrestricted claim is false of the code: C18_open_with_refuted, C18_enclose_refuted, C18_wrapper_refuted."
 ],
 "C19": [
  "proved",
  ""
 ],
 "C20": [
  "proved",
  "C20_law / C20_node_law state the trace on the links the user sees: first event (Next, first()), each event followed by Down to first(), else Next to next(), else Up to parent(); every node entered once and left once iff it has children. C20_walk_events / C20_node_walk_events give the same trace as a list computed from the document. C20_count: the walk has one event per node plus one per node with children, at most twice Tree::len."
 ],
 "C21": [
  "proved",
  ""
 ],
 "C22": [
  "proved",
  ""
 ],
 "C23": [
  "proved",
  "Node::walk yields the node itself first, as the property says (the doc comment speaks of the first child)."
 ],
 "C24": [
  "partial",
  "As C09: C24_law_partial gives the answers to every schedule on every list of children (a two-ended queue when settled, two different lists otherwise) and C24_exact_partial says the claim holds of a list exactly when it is settled; C09_last_refuted shows the rest is false of the code."
 ],
 "C25": [
  "proved",
  ""
 ],
 "C26": [
  "partial",
  "Forward: proved for every iterator. From the back of children(): for settled lists, as C24. For every history, in terms of the answers of children(): C70_skip. C26_find_both_ends_partial: find and rfind with any predicates, mixed in any order, on children (settled lists, as C24)."
 ],
 "C27": [
  "partial",
  "Predicates with state (FnMut): the theorems also say which nodes the predicate is asked about, in which order. C27_up and C27_none hold for every finished tree: the upward phase and the None answer are as documented. The downward phase uses last(), which is stale after some close_at calls: C27_down_refuted. C27_find_partial is the full search on documents whose last() links are settled. For every history, in terms of ancestors/prev/last: C70_find."
 ],
 "C28": [
  "proved",
  "Tree equality between flavors is `alike` of the documents (shape, values, spans), whatever the identifiers and the way of building; equivalence relation when value comparison is one."
 ],
 "C29": [
  "proved",
  "C29_replace for any link table; C29_as_if_built: the changed tree is the tree of a history differing only in the value, with only that value changed in the document; C29_queries: range queries find the same nodes. Aliasing of other Node handles (Cell) is modelled by the table itself being changed."
 ],
 "C30": [
  "proved",
  "All plain histories, flavors with Vec storage and Vec indexes and a spanned index type, all ranges, any search that meets the contract of binary_search_by (C30_search: the standard library's does)."
 ],
 "C31": [
  "partial",
  "C31_plain_partial: trees built with plain calls (any flavors with Vec indexes), compared with any PartialEq. Missing: token_with and modify, for which it is false of the code (C31_refuted: plain tokens are filed under their end, explicit tokens under their start). Modified trees that compare equal answer alike: C31_modified_partial. Trees whose tokens were all given their spans with ascending starts, or that were modified, answer alike when they compare equal, in any mixture (C31_starts_partial); what remains false is one plain token() of positive width against an explicit one."
 ],
 "C32": [
  "partial",
  "Refuted as stated (C32_refuted). Proved: the empty change set always returns a copy with the same shape and values, same leaf spans, same node starts and same tree span (C32_plain_partial); what the ends are (C32_copy_partial); and exactly when the copy equals the original (C32_equal_partial). Holds for built trees and for trees that were themselves modified."
 ],
 "C33": [
  "partial",
  "Refuted as stated (last child, two removals, wrapped documents). Proved for every tree and change set: modify terminates with the tree that the relation `edited` describes, or Overflow exactly when it does not fit (C33_outcome). Proved right: one removal, of a root or of a node with a later sibling, in trees numbered in walk order (C33_single_partial; C33_in_order says which trees are), and removals of unknown ids (C33_unknown). Single removals from trees numbered in walk order are fully characterised: they are right exactly for roots and nodes with a later sibling (C33_exact_partial), and removing any other node makes its parent twice, or overflows (C33_last_partial). C33_changes, C33_same_set: the registered identifiers count as a set."
 ],
 "C34": [
  "proved",
  ""
 ],
 "C35": [
  "proved",
  "C35_in_range for all histories and all storages. C35_len_to, C35_add_len: adding a length and the length between two indexes undo each other; empty lengths."
 ],
 "C36": [
  "partial",
  "C36_family_partial: any number of builders, made with new() or by cloning one another, in any interleaving of any calls: a builder answers and builds exactly as if the calls of its own story (its calls, and before the clone those of the builder it was cloned from) were made on one builder alone, provided no checkpoint given to a call outside the story is later given to a call in it; C36_quiet_partial: in particular when the other builders never call close_at. C36_family_sharp: without that condition it is false. C36_independent_partial: the two builder case where only checkpoints taken after the clone are used and a node was added between the last checkpoint and the clone. Otherwise false of the code: C36_live_refuted, C36_old_refuted."
 ],
 "C37": [
  "partial",
  "Positions, absence of index overflow and structure are proved for all histories and any second flavor (C37_structure; with equal pointer width no hypothesis on the Empty run is needed: C37_structure_empty; as documents: C37_outline). Range queries: None in every tree with Indexes = EmptyVec, the storage the documentation pairs with Empty, whatever search is used (C37_no_ranges), and with Vec indexes for the binary search of std (C37_no_ranges_std). Missing: nothing provable; with Vec indexes and another search that meets binary_search's documented contract the claim is false (C37_ranges_refuted)."
 ],
 "C38": [
  "proved",
  "All histories, including every misuse of checkpoints, Vec flavors. Allocation failure aborts and is outside the model."
 ],
 "C39": [
  "proved",
  "print / print_with_source / print_with_lookup; Debug/Display rendering of the fields is not modelled, lines are records."
 ],
 "C40": [
  "partial",
  "C40_reports: every call that would insert a node reports Error::Flavor when the link storage fails, every other call behaves as usual, after any careful history of calls and faults. C40_intact_partial: the tree is intact unless the failing call was going to wrap nodes (but token moves the cursor and the tree span). C40_index_partial: what a failing index storage leaves behind. C40_safe_partial: afterwards every call returns and every iterator ends. The claim as stated is false of the code: C40_close_at_refuted (nodes lost), C40_cycle_refuted (a node becomes its own parent, ancestors() never ends), C40_sibling_refuted, C40_index_refuted, C40_token_refuted. C40_modify: modify() into storages with capacities of their own gives the same tree when it fits and Error::Flavor otherwise."
 ],
 "C41": [
  "proved",
  "C41_tree: Ok or Err(Overflow), never anything else; the document depicts the literal. C41_capacity: exact condition for success for literals without explicit spans. C41_walk: values of the walk. Macro expansion itself (src/macros.rs) is modelled by `expand`."
 ],
 "C42": [
  "proved",
  "All iterators, from any node, on any finished tree; also skip_tokens and with_depths/inside."
 ],
 "C43": [
  "proved",
  "For all histories and storages; C43_map gives the document of the mapped history."
 ],
 "C44": [
  "partial",
  "False of the code (C44_contains_refuted, C44_token_refuted: with two roots the query 2..5 answers with 0..3; a root-level token is its own answer). C44_contains_partial: true on plain trees exactly when some node with children holds s and reaches e (C30_otherwise describes the other case)."
 ],
 "C45": [
  "proved",
  "All histories, including misuse of checkpoints (Vec flavors); C45_still and C45_set for every state and flavor. A token refused for the number of nodes is the exception described by C13."
 ],
 "C46": [
  "proved",
  "C46_len for all histories, C46_document for finished ones."
 ],
 "C47": [
  "proved",
  "Entries and lines as records; the text of values, spans and numbers is not modelled."
 ],
 "C48": [
  "proved",
  "All structured programs; the tree-returning reading is SpecProgram.program_trees. C48_exact and C48_any: Overflow exactly when there is no room, also with Empty indexes (the tree then has the same nodes with no positions)."
 ],
 "C49": [
  "proved",
  "All texts and all expressions. C49_lossless_refuted records that the program drops what follows the first token it does not expect (\"1 2\"). C49_characters: white space, digits, letters, lengths, positions and slices are those of Unicode and UTF-8."
 ],
 "C50": [
  "proved",
  "All texts, well-formed or not."
 ],
 "C51": [
  "proved",
  "All texts (totality) and all expressions whose parentheses do not directly contain a space or another parenthesis (value). C51_parentheses_refuted records that the program answers \"( 1)\" and \"((1))\" with an error. C51_answers: the results of every text, one per top-level node, uniquely determined by the specification (with spans and kinds of errors)."
 ],
 "C52": [
  "proved",
  "Every builder tree with ascending keys and every modified tree; the keys are stated from the history (SpecRange.files)."
 ],
 "C53": [
  "proved",
  "Safety, liveness, isolation, stable values and the exact condition of MissingNode over all interleavings. C53_unchanged_refuted: a MissingNode refusal is not without effect (it leaves a stray node), so C13's claim does not extend to foreign checkpoints. C53_made: new builders and clones. C53_independent: builders used with their own checkpoints (no clones), in any interleaving, answer and build as if each were alone. Clones with their own checkpoints: C36_family_partial."
 ],
 "C54": [
  "proved",
  "Bytes handed to any sink (C54_print), to a vector (C54_text), to a bounded buffer (C54_buffer); decimal notation characterised (C54_numbers); text determines the document (C54_readable, C54_plain_readable, C54_debug_readable); C54_deep_refuted: with the width limit of Rust >= 1.87 a deeply nested tree cannot be printed. Debug texts of values and of str are parameters. {:#?} is not modelled."
 ],
 "C55": [
  "proved",
  "One theorem for the whole program (C55_program), with its specification in SpecSynth.v; the characters are those of C49_characters. The tree is also printed by the program (C54); the Debug text of the printed strings is not modelled."
 ],
 "C56": [
  "proved",
  "C56_anywhere: one theorem for built and modified trees, every start, every interleaving of any length and each form of continuing, inside() included (SpecInside.v gives its law by depths alone). C56_tree, C56_node, C56_from: the same for built trees with inside() said by subtrees. C56_descendants: inside() after the node itself has been taken; for a node without children it goes on in the next sibling."
 ],
 "C57": [
  "proved",
  "C57_settles for trees whose tokens do not run backwards (C57_built: every tree built with the builder's own spans); C57_twice for all others: the second modify succeeds and changes at most the index, the third changes nothing; C57_once_refuted shows that the index can change."
 ],
 "C58": [
  "proved",
  "C58_document: every result of modify has one document (C33_outcome says which); C58_law: walk events as in C20_law; the other theorems are those of C07-C10 and C19-C28 for it, without the exceptions of C09, C24, C26, C27. fits: fewer nodes than isize::MAX. Printing and Debug: C54_shows and C32/C33 (presents); range queries: C52_modified. The tree may have had values replaced after the modify (SpecModified.v)."
 ],
 "C59": [
  "proved",
  "Two-flavor simulation: every builder step in the two flavors is equal or one of them returns Overflow (C59_run, C59_more_room, C59_first_difference); same document and tree (C59_finished), same walks item for item (C59_walks), same text (C59_texts), same modify (C59_modify, any tree and change set), same range query within both index types (C59_queries) and the exact difference beyond (C59_range_limit). Flavors with Index = Empty are C37; here both must keep positions."
 ],
 "C60": [
  "proved",
  "C60_pointers, C60_spans, C60_transitive: the derived orders and hashes (Compare.v; the hash is what is fed to the hasher). C60_insertion: the identifiers of any history. C60_sorted: tokens of plain histories."
 ],
 "C61": [
  "proved",
  "C61_history: run_edits (the calls) against rewritten (the documents), with the ending unique; C61_either: such a tree is a finished one of some history or a modified one, so C01-C60 apply; C61_last_write, C61_independent: equality of trees; C61_values: for any tree in any state, any map of values and any change set; C61_no_new_values. C32, C33, C52, C57, C58 are stated for `made` trees, which since now include those with replaced values."
 ],
 "C62": [
  "proved",
  "C62_chain: the childless node, and an iff between 'span has p' and 'is in the ancestors() enumeration'; C62_end; C62_order: by positions in the walk enumeration, for trees without explicit spans and for modified trees."
 ],
 "C63": [
  "proved",
  "C63_rebuild: every made tree, exact capacity; C63_equal: plain runs, equality by Tree::eq and of documents, the new run has no checkpoints; C63_modified: alike but for the ends, which are those of the layout; C63_again. The replaying program (SpecReplay.v) is a user's program, not part of the repository."
 ],
 "C64": [
  "proved",
  "For any history of builder calls, misused (swallowed, reused, late) checkpoints included, and any later modify/replace. [reads] is a small relation: what is found through first and next, with has_children agreeing. C64_reaches: exactly one finite document is read and every node is in it once (C64_one: up to the unobservable kind). C64_agrees: for proper use it is the document of C01. C64_modify: what modify does to such a tree, for every change set; C64_copy: with no changes it repairs the tree: all navigation agrees again. C64_walk_refuted, C64_parent_refuted: walk and parent() do not have this property (witnesses)."
 ],
 "C65": [
  "proved",
  "Simulation of the builder by a small specification machine on plain trees (SpecShape.h_step) with no condition on the use of checkpoints. C65_history: outputs of all calls, the document read by first/next, every parent(), node count, cursor, tree span, outcome of build. C65_prev: prev is the way back of next. C65_agrees: for checkpoints used as intended it is the document of C01 (up to the unobservable kind)."
 ],
 "C66": [
  "proved",
  "C66_grows, for any history and any continuation: order, nesting and values of the nodes already there are kept exactly (filtering the later document to the earlier identifiers gives the earlier document, also below every node), and spans of nodes that are not open are kept. Open nodes are those of C65's specification."
 ],
 "C67": [
  "proved",
  "For every history: C67_parent, C67_first, C67_ancestors (named parents are enclosing nodes), C67_walk (the three walks are exactly the tour of SpecTour, which follows the named parents), C67_order (document order, no repetition), C67_complete (with proper parents the tour is the full preorder / event list). The tour is a separate recursive specification on the document read and the named parents. C64_walk_refuted shows that nodes can be left out."
 ],
 "C68": [
  "proved",
  "For every history: C68_last (last() follows SpecEnds.e_run, a separate rule per call beside SpecShape), C68_inside (last() is inside the node, none iff childless; the same for the tree), C68_children / C68_children_back (exact enumerations from the front and from the back), C68_both (any interleaving of the two), C68_range (range queries in terms of the filed tokens and ancestors(), for every search function), C68_same (the observations determine the tree). C68_inhabited is a history where last() is not a child and where front and back iteration over the roots disagree."
 ],
 "C69": [
  "proved",
  "For every history: C69_equal (== compares what the walks show; SpecShown), C69_print (print/print_with_source/Debug list it), C69_equivalence (equivalence relation; equal iff same Debug entries iff same printed lines, for every source), C69_complete (proper parents: the whole document). C69_nodes_refuted: equality of documents (C28) does not extend to misused checkpoints: a tree of six nodes equals one of five, because its walk misses a node. print and Debug at the level of lines and entries; their text is C54."
 ],
 "C70": [
  "proved",
  "For every history: C70_walk, C70_walk_from and C70_tree_walk (the exact visits, all four forms; SpecOnward, SpecTour), C70_order (document order, after n, no repeats), C70_place (every node has a place), C70_inside (proper subtrees), C70_siblings, C70_find (termination, the answer and the predicate calls, in terms of ancestors/prev/last), C70_skip (in terms of children(), both ends). C70_inside_refuted: after a swallowed checkpoint inside() also visits the next sibling of the node, as the last node of a row names an outer node: the depth drops by one while the walk climbs several levels."
 ],
 "C71": [
  "proved",
  "modify depends only on the reading (C71_modify_reads); every history's tree reads as that of a proper history (C71_proper); replace after any history (C71_replace); every obtained tree is built or properly modified (C71_either); links those of a built tree (C71_shape); bounds, termination (C71_safe); == / print / Debug of all of them (C71_equal, C71_print)."
 ],
 "C72": [
  "proved",
  "Exact language and expansion (C72_accepts), unambiguous (C72_one), the tree (C72_tree), recursion limit (C72_limit, C72_wide), last comma (C72_comma), every document has a literal (C72_every). Expressions other than parenthesised lists are single tokens in the model (rustc's expression parser is not modelled)."
 ],
 "C73": [
  "proved",
  "C73_cycle: what cycle() gives; C73_build and C73_tree: the exact tree and exactly when Overflow, in every flavor; C73_counts: both counts; C73_random (any generator: no panic, sizes, no whitespace, each string begins with the one before) and C73_random_ends; C73_benches: no expect/unwrap of the program fails. The rowan halves and criterion are not modelled. C73_strings: exactly which strings."
 ],
 "C74": [
  "proved",
  "C74_tree (bytes, any flavor), C74_node, C74_readable. core::fmt's builders and PadAdapter are modelled in Pretty.v as of the standard library's source; trees from a builder or modify show their document by C54_shows."
 ],
 "C75": [
  "proved",
  "C75_depths (never below the nesting, never negative), C75_print (any writer), C75_text (print, {:?}, {:#?} to the byte), C75_equal (== iff the texts are the same, three texts), all for every `obtained` tree. C75_depths_refuted: the depth can be more than the nesting, and print indents a root."
 ],
 "C76": [
  "proved",
  "C76_calls (which token sequences compile and to what), C76_flavors (the macro's flavors are exactly the vec_flavors of the other theorems), C76_storage_ignored (finding: `type Storage` is matched and never used). Types are single tokens; doc comments, visibility and name are left out."
 ],
 "C77": [
  "proved",
  "C77_builder, C77_room (capacity >= len for every builder and tree), C77_calls, C77_nothing (0 exactly without a node), C77_modify, C77_exists (every history has such a storage). The allocator is any relation within Vec's documented contract. C77_removal_refuted: a removal can need a second allocation (follows from C33_last)."
 ],
 "C78": [
  "proved",
  "C78_identifiers, C78_told_apart, C78_spans, C78_errors, C78_source, C78_events. Plain {} and {:?} without width or padding flags."
 ],
 "C79": [
  "proved",
  "C79_walk (walk, depths, events, inside), C79_links (children from both ends, siblings, ancestors). One iterator per program; others hold positions only. SkipTokens and WithoutTokens are not covered here."
 ]
}