{"id": "C01", "title": "The built tree has exactly the nesting the calls describe", "statement": "If a sequence of open/open_with/close/token/token_empty/token_with/checkpoint/close_at/close_at_with/set_cursor calls ends in a successful build, walking the tree gives exactly one node per successful inserting call, carrying the value passed, nested as the calls nest: a node opened is the parent of everything added before its matching close, tokens are leaves, close_at makes one node around everything added at that level since the checkpoint. Failed calls leave no trace in the structure.", "quantifier": "every finite history of builder calls (with checkpoints used while they still denote a sibling), every value type, every flavor", "why_tests_cant": "unbounded histories and nesting depths; tests fix a handful of literal call sequences", "anchors": ["src/builder.rs: Builder::{open,close,token,token_empty,token_with,open_with,close_at,close_at_with,insert,build}", "src/tree.rs: Tree"]}
{"id": "C02", "title": "Unbalanced use is reported, never silently accepted", "statement": "close() returns CloseError exactly when no node is open (and then changes nothing); build() returns BuildError exactly when some opened node has not been closed, and otherwise returns the tree.", "quantifier": "every history of builder calls", "why_tests_cant": "depends on the balance of an arbitrary history", "anchors": ["src/builder.rs: Builder::close, Builder::build", "src/error.rs: Error"]}
{"id": "C03", "title": "Wrapping with a checkpoint equals having opened the node up front", "statement": "checkpoint(); X; close_at(&c, d) gives the same tree, same cursor and same spans as open(d); X; close() for every balanced program X, including the empty one, in every surrounding builder state.", "quantifier": "every balanced program X of open/close/token/checkpoint/close_at, every prefix history, every value", "why_tests_cant": "quantifies over all programs X and all contexts", "anchors": ["src/builder.rs: Builder::checkpoint, Builder::close_at, restructure_close_at"]}
{"id": "C04", "title": "Checkpoints can be nested and reused; each use wraps the siblings added since", "statement": "A checkpoint keeps denoting the same position: closing it again wraps the node made by the previous close together with everything added since; several checkpoints taken at the same place are interchangeable; closing an inner (later) checkpoint never disturbs an outer (earlier) one.", "quantifier": "every history, every set of live checkpoints, every order of use from inner to outer", "why_tests_cant": "interleavings of several shared checkpoints are unbounded", "anchors": ["src/builder.rs: Builder::checkpoint, Builder::close_at", "src/builder/checkpoint.rs: Checkpoint"]}
{"id": "C05", "title": "close_at reports CloseAtError when the checkpoint is not at the current level", "statement": "close_at returns CloseAtError, and changes nothing, exactly when the node currently open is not the node that was open when the checkpoint was taken; the documentation further promises CloseAtError whenever the checkpointed place is no longer a sibling at the current level (for example because an enclosing close_at swallowed it).", "quantifier": "every history and every checkpoint obtained in it", "why_tests_cant": "requires reasoning about all later histories of a checkpoint", "anchors": ["src/builder.rs: Builder::close_at, Builder::close_at_with", "src/error.rs: Error::CloseAtError"]}
{"id": "C06", "title": "Taking a checkpoint is free of side effects on the tree", "statement": "Inserting checkpoint() calls anywhere in a history (and not closing them) changes neither the outcome of any other call nor the tree that is finally built.", "quantifier": "every history and every insertion point", "why_tests_cant": "the effect could show up arbitrarily later in the history (it did, see test_checkpoints_around_close)", "anchors": ["src/builder.rs: Builder::checkpoint"]}
{"id": "C07", "title": "Parent and child links agree", "statement": "In a built tree, n.children() yields exactly the nodes whose parent() is n, in the order they were added, tree.children() yields exactly the nodes with no parent, and following parent() from any node reaches a root after finitely many steps.", "quantifier": "every built tree, every node", "why_tests_cant": "global invariant over all reachable trees", "anchors": ["src/node/node_impl.rs: Node::parent, Node::children, Node::first", "src/tree.rs: Tree::children, Tree::first", "src/builder.rs: insert, close_at"]}
{"id": "C08", "title": "Sibling links are a consistent doubly linked list", "statement": "For all nodes a, b of a built tree: a.next() is b iff b.prev() is a; siblings share their parent; the first child has no prev and the last child no next.", "quantifier": "every built tree, every pair of nodes", "why_tests_cant": "global invariant over all reachable trees", "anchors": ["src/node/node_impl.rs: Node::next, Node::prev", "src/builder.rs: insert, close_at"]}
{"id": "C09", "title": "last() and reverse iteration see the last child", "statement": "Node::last()/Tree::last() return the last element children() yields, and children().rev() yields the children in exactly the reverse order of children().", "quantifier": "every built tree, every node", "why_tests_cant": "must hold after every possible wrapping history", "anchors": ["src/node/node_impl.rs: Node::last", "src/tree.rs: Tree::last", "src/node/children.rs: Children::next_back", "src/builder.rs: close_at"]}
{"id": "C10", "title": "Identifiers are unique, dense, stable and resolve to their node", "statement": "The pointer returned by an inserting call is fresh (the number of nodes so far), keeps denoting the same node with the same value through every later call including close_at, tree.get(id) returns it, node.id() is the inverse of tree.get, and tree.len() is the number of successful insertions.", "quantifier": "every history, every returned pointer, every later call", "why_tests_cant": "stability is over all future calls", "anchors": ["src/builder.rs: insert, open, token, close_at", "src/tree.rs: Tree::get, Tree::len", "src/node/node_impl.rs: Node::id"]}
{"id": "C11", "title": "Pointer encoding round-trips and rejects exactly the out-of-range values", "statement": "For each pointer width, Pointer::new(v) is Some iff v is below the maximum of the width (and representable), Pointer::new(v).get() == v, distinct values give distinct pointers, the stored representation is never zero, and new_unchecked agrees with new on legal values.", "quantifier": "all usize values, all six widths, 32- and 64-bit usize", "why_tests_cant": "2^64 values; wrap-around boundary", "anchors": ["src/pointer.rs: implement!, Pointer::new, Pointer::get, Pointer::new_unchecked", "src/node/node_impl.rs: Node::id"]}
{"id": "C12", "title": "A tree holds exactly as many nodes as its width allows", "statement": "An inserting call fails with Overflow exactly when the tree already has MAX nodes (255 for u8 pointers, 65535 for u16, ...) or the cursor would overflow the index type; no reachable tree ever exceeds that size, so every identifier in it is representable.", "quantifier": "every history, every width", "why_tests_cant": "needs 2^16 .. 2^64 node histories", "anchors": ["src/builder.rs: insert, token, checkpoint, close_at", "src/pointer.rs: implement!"]}
{"id": "C13", "title": "A call that returns an error leaves the builder as it was", "statement": "If a builder call returns Err, every observable of the builder (tree so far, cursor, tree span, open nodes) is unchanged.", "quantifier": "every reachable builder state, every call that can fail", "why_tests_cant": "every state and failure path; error states compose with all later calls", "anchors": ["src/builder.rs: token, close, close_at, insert", "src/error.rs: Error"]}
{"id": "C14", "title": "Token spans tile the input: the cursor advances by exactly the token lengths", "statement": "With open/close/token/checkpoint/close_at, each token's span starts at the sum of the lengths of the tokens before it and has its own length; so in walk order consecutive tokens meet without gap or overlap, and cursor() is the sum of all token lengths.", "quantifier": "every plain history, every flavor with real indexes", "why_tests_cant": "unbounded histories", "anchors": ["src/builder.rs: token, cursor, close", "src/span.rs: Span"]}
{"id": "C15", "title": "A node's span is exactly the span of its contents", "statement": "With plain calls every node's span starts where its first descendant token starts and ends where its last one ends (an empty node is a point at the cursor where it was created); consequently children spans are contained in, ordered within and exactly cover the parent's span.", "quantifier": "every plain history including arbitrary checkpoint wraps, every node", "why_tests_cant": "nested wraps of unbounded depth", "anchors": ["src/builder.rs: insert, close, close_at, restructure_close_at", "src/node/node_impl.rs: Node::span"]}
{"id": "C16", "title": "The tree span covers the whole input", "statement": "tree.span()/tree.range() of a tree built with plain calls is 0..total where total is the sum of the token lengths and equals the join of the root spans.", "quantifier": "every plain history", "why_tests_cant": "unbounded histories", "anchors": ["src/tree.rs: Tree::span, Tree::range", "src/builder.rs: token"]}
{"id": "C17", "title": "Losslessness: token ranges reproduce the source text", "statement": "If tokens were added with lengths summing to the length of a source text, concatenating source[token.range()] over the tokens in walk order gives back the source.", "quantifier": "every source text, every plain history", "why_tests_cant": "all sources and all tree shapes", "anchors": ["src/node/node_impl.rs: Node::range", "src/span.rs: Span::range", "src/print.rs: print_with_source"]}
{"id": "C18", "title": "Explicit spans are honoured and parents enclose their children", "statement": "A node opened with open_with(d, span) / wrapped with close_at_with(c, d, span) / added with token_with(d, span) reports a span containing the given span, and 'the span of a node is the complete span of all its children' also with explicit spans.", "quantifier": "every history with explicit spans", "why_tests_cant": "order-dependent interaction of arbitrary spans", "anchors": ["src/builder.rs: open_with, token_with, close_at_with, close", "src/span.rs: Span::join"]}
{"id": "C19", "title": "walk() visits every node exactly once in document order", "statement": "tree.walk() yields every node of the tree exactly once, in depth-first pre-order, then None forever; it terminates on every built tree.", "quantifier": "every built tree", "why_tests_cant": "all tree shapes; termination", "anchors": ["src/node/walk.rs: Walk", "src/node/walk_events.rs: WalkEvents", "src/tree.rs: Tree::walk"]}
{"id": "C20", "title": "walk_events() is a balanced trace of the traversal", "statement": "tree.walk_events() emits Next/Down once per node and one Up per node with children; the events form a correctly nested trace: Down enters the first child of the node emitted before, Next moves to the next sibling, Up returns to the parent after its last child.", "quantifier": "every built tree", "why_tests_cant": "all tree shapes", "anchors": ["src/node/walk_events.rs: WalkEvents::next, WalkEvents::step"]}
{"id": "C21", "title": "Reported depths equal the number of ancestors", "statement": "walk().with_depths() (and next_with_depth) pairs each node with the number of its strict ancestors; starting from a node, depths are relative to it and may become negative.", "quantifier": "every built tree, every starting node", "why_tests_cant": "all tree shapes and depths", "anchors": ["src/node/walk.rs: WithDepths, Walk::next_with_depth", "src/node/walk_events.rs: depth"]}
{"id": "C22", "title": "inside() is confined to the subtree", "statement": "n.walk().inside() yields exactly n and its descendants in pre-order, and n.walk_from().inside() yields nothing.", "quantifier": "every built tree, every node n", "why_tests_cant": "boundary behaviour at every possible node position", "anchors": ["src/node/walk.rs: Inside"]}
{"id": "C23", "title": "Walking from a node continues through the rest of the document", "statement": "n.walk() yields the suffix of tree.walk() starting at n; n.walk_from() yields the suffix of tree.walk() that follows n's subtree.", "quantifier": "every built tree, every node", "why_tests_cant": "all nodes of all shapes", "anchors": ["src/node/node_impl.rs: Node::walk, Node::walk_from, Node::walk_events"]}
{"id": "C24", "title": "children() is a correct double-ended iterator under any interleaving", "statement": "For any sequence of next()/next_back() calls, the k-th successful next() yields the k-th child from the front, the k-th next_back() the k-th from the back, every child is yielded at most once overall, exactly once when exhausted, and once None both ends stay None.", "quantifier": "every list of children, every schedule of front/back calls", "why_tests_cant": "2^n schedules; meeting-point boundary", "anchors": ["src/node/children.rs: Children::next, Children::next_back"]}
{"id": "C25", "title": "siblings() and ancestors() enumerate the right nodes", "statement": "n.siblings() yields n and then every following sibling in order; n.ancestors() yields n, its parent, ... up to a root; both end.", "quantifier": "every built tree, every node", "why_tests_cant": "all shapes", "anchors": ["src/node/siblings.rs: Siblings", "src/node/ancestors.rs: Ancestors"]}
{"id": "C26", "title": "skip_tokens() and next_node() filter exactly the childless nodes", "statement": "For every supported iterator, skip_tokens() yields the sub-sequence of nodes that have children, in order, and next_node() yields the next such node and leaves the iterator just after it; the same holds from the back for children. Its size_hint() is right whenever that of the iterator below is.", "quantifier": "every tree, every iterator state", "why_tests_cant": "all shapes and positions", "anchors": ["src/node/skip_tokens.rs: SkipTokens", "src/node/children.rs: next_node", "src/node/siblings.rs: next_node", "src/node/ancestors.rs: next_node"]}
{"id": "C27", "title": "find_preceding follows its documented search", "statement": "n.find_preceding(p) goes up from n through its ancestors to the nearest one whose previous sibling satisfies p, then descends through last children while they satisfy p; it returns None iff no ancestor-or-self has a previous sibling satisfying p; it terminates.", "quantifier": "every tree, node and predicate", "why_tests_cant": "arbitrary predicates and shapes", "anchors": ["src/node/node_impl.rs: Node::find_preceding"]}
{"id": "C28", "title": "Tree equality is equality of the documents", "statement": "Two trees (of possibly different flavors) compare equal iff they have the same shape with the same values and spans in the same places; in particular == is an equivalence relation, and does not depend on identifiers or on how the tree was built (checkpoint or open).", "quantifier": "all pairs of built trees", "why_tests_cant": "all pairs of trees; needs injectivity of the depth-annotated walk", "anchors": ["src/tree.rs: impl PartialEq for Tree", "src/node/node_impl.rs: impl PartialEq for Node"]}
{"id": "C29", "title": "replace() changes one value and nothing else", "statement": "node.replace(v) returns the old value; afterwards that node's value is v and every other node's value, all links, spans, ids and range queries are unchanged.", "quantifier": "every tree, node, value", "why_tests_cant": "frame condition over all other nodes", "anchors": ["src/node/node_impl.rs: Node::replace, Node::value"]}
{"id": "C30", "title": "Range queries find the smallest enclosing node", "statement": "For trees built with plain calls, node_with_range(s..e)/node_with_span with s below the end of the input returns the smallest node with children that contains the token at s and reaches to the position e, when such a node exists; otherwise the root above the token at s; and None when s is at or past the end. The answer depends on the document only, not on which of the allowed answers the standard library's binary search gives.", "quantifier": "every plain tree, every range", "why_tests_cant": "all ranges against all trees", "anchors": ["src/tree.rs: Tree::node_with_range, Tree::node_with_span, node_with_span_internal", "src/index.rs: TreeIndex"]}
{"id": "C31", "title": "Range queries agree on equal trees", "statement": "Two trees that compare equal answer every node_with_range query with equal nodes, however they were produced (token, token_with, ChangeSet::modify).", "quantifier": "all pairs of equal trees, all ranges", "why_tests_cant": "all pairs of construction paths", "anchors": ["src/tree.rs: node_with_span_internal", "src/builder.rs: token, token_with", "src/edit.rs: ChangeSet::modify"]}
{"id": "C32", "title": "An empty ChangeSet copies the tree", "statement": "ChangeSet::new().modify(&tree) succeeds and returns a tree equal to the original (same shape, values, spans).", "quantifier": "every plain tree", "why_tests_cant": "all shapes", "anchors": ["src/edit.rs: ChangeSet::modify, RefactorWalk::step"]}
{"id": "C33", "title": "ChangeSet removal removes exactly the registered subtrees", "statement": "modify() returns the tree without the subtrees rooted at the removed ids, everything else kept in order, spans shifted accordingly.", "quantifier": "every tree, every set of removed ids", "why_tests_cant": "all combinations of removals", "anchors": ["src/edit.rs: ChangeSet::remove, ChangeSet::modify, RefactorWalk::skip_subtree, RefactorWalk::step"]}
{"id": "C34", "title": "Span algebra", "statement": "join is the least span covering both (commutative, associative, idempotent, monotone), is_empty/len/contains/range agree with start..end, point is empty, contains(i) iff start<=i<end.", "quantifier": "all spans over all index types", "why_tests_cant": "2^64 squared pairs; boundary cases", "anchors": ["src/span.rs: Span::{new,point,join,is_empty,contains,range,len}"]}
{"id": "C35", "title": "Index arithmetic never wraps", "statement": "checked_add_len returns None exactly when the mathematical sum exceeds the index type, otherwise the exact sum; a token whose length would overflow is rejected with Overflow and nothing changes; spans never wrap around.", "quantifier": "all cursors and lengths, u32/usize/Empty", "why_tests_cant": "boundary over 2^32/2^64 values and all states", "anchors": ["src/index.rs: impl Index for u32, usize", "src/empty.rs: impl Index for Empty", "src/builder.rs: token"]}
{"id": "C36", "title": "A cloned builder is independent", "statement": "After let b2 = b.clone(), no sequence of calls on b changes the behaviour of b2 (with checkpoints obtained from b2), and vice versa.", "quantifier": "every pair of histories on the two builders", "why_tests_cant": "interleavings of two histories", "anchors": ["src/builder.rs: impl Clone for Builder, checkpoint, close_at", "src/builder/checkpoint.rs: Checkpoint(Rc<Cell<..>>)"]}
{"id": "C37", "title": "The Empty flavor stores no spans but the same structure", "statement": "With Index = Empty every span is empty, the cursor never moves, no call fails with index overflow, range queries return None, and the structure is the one the same calls give in any other flavor.", "quantifier": "every history", "why_tests_cant": "all histories, relation between two flavors", "anchors": ["src/empty.rs: Empty, EmptyVec"]}
{"id": "C38", "title": "No history of calls makes the library hang, panic or follow a dangling pointer", "statement": "Whatever the sequence of builder calls, including checkpoints used in any order, every link in the tree stays in bounds, sibling chains are finite, close_at's internal loop ends, no internal MissingNode error arises with the builder's own checkpoints, and walking the tree from any node ends.", "quantifier": "every history of one builder, including out-of-order checkpoint use", "why_tests_cant": "liveness over all histories incl. misuse", "anchors": ["src/builder.rs: restructure_close_at, close_at, insert, close", "src/node/walk_events.rs: WalkEvents::next", "src/node/node_impl.rs: find_preceding"]}
{"id": "C39", "title": "print lists every node once, indented by depth", "statement": "print/print_with_source write one line per node in walk order, indented two spaces per ancestor, with value and span; nodes with children have no text, tokens show their source slice if the range is valid for the source, else '+'.", "quantifier": "every tree, every source", "why_tests_cant": "all trees", "anchors": ["src/print.rs: print, print_with_source, print_with_lookup"]}
{"id": "C40", "title": "A failing storage does not corrupt the tree", "statement": "With a custom Storage whose push fails, the failing builder call returns Error::Flavor and the tree so far stays intact.", "quantifier": "every history, every failure point", "why_tests_cant": "crash points at every push", "anchors": ["src/builder.rs: insert, close_at", "src/flavor.rs: Storage"]}
{"id": "C41", "title": "tree! builds the tree it depicts", "statement": "tree!{..} succeeds (up to capacity) and yields a tree whose walk is the pre-order of the literal.", "quantifier": "every tree literal (nodes, tokens with length, empty tokens, explicit spans)", "why_tests_cant": "all literals", "anchors": ["src/macros.rs: tree!, tree_with!"]}
{"id": "C42", "title": "All iterators are fused", "statement": "Once an iterator (Children from either end, Siblings, Ancestors, Walk, WalkEvents, WithDepths, Inside, SkipTokens) returns None, it returns None on every later call.", "quantifier": "every tree, every iterator state, any number of further calls", "why_tests_cant": "all states", "anchors": ["src/node/children.rs", "src/node/siblings.rs", "src/node/ancestors.rs", "src/node/walk.rs", "src/node/walk_events.rs", "src/node/skip_tokens.rs"]}
{"id": "C43", "title": "The library never looks at the values", "statement": "Two sequences of builder calls that differ only in the values passed return the same results (same identifiers, same errors) and build trees that differ only in the values; mapping a function over the values of a history maps it over the built tree.", "quantifier": "all histories, all value types, all functions on values, all flavors and storages", "why_tests_cant": "parametricity: it ranges over all value types and all histories", "anchors": ["src/builder.rs: Builder", "src/links.rs: Links"]}
{"id": "C44", "title": "Range queries return a node with children that contains the range", "statement": "The node returned by node_with_range(s..e) / node_with_span contains the entirety of the range s..e (the documentation: 'This query finds the node which contains the entirety of the given Range') and, as in all the documented examples, it is a node with children.", "quantifier": "every tree, every range", "why_tests_cant": "all ranges against all trees", "anchors": ["src/tree.rs: Tree::node_with_range, Tree::node_with_span"]}
{"id": "C45", "title": "Each call moves the cursor, and places its node, exactly as documented", "statement": "open, open_with, token_empty, checkpoint, close_at and close_at_with leave the cursor where it is; set_cursor puts it at the given position and changes nothing else; a successful token advances it by exactly its length; a successful token_with moves it to the end of its span; a successful close moves it to the end of the closed node. A node added by open*/token* becomes a childless, last child of the innermost node still open (a root if none is), carries the value passed and covers the span passed or, without one, the cursor before to the cursor after the call.", "quantifier": "every history of builder calls, including misuse of checkpoints and refused calls", "why_tests_cant": "it ranges over all call sequences; the innermost open node depends on the whole history", "anchors": ["src/builder.rs: Builder::open, open_with, close, token, token_with, token_empty, cursor, set_cursor, close_at, close_at_with"]}
{"id": "C46", "title": "Sizes and emptiness", "statement": "Tree::len is the number of calls that returned a node, which is the number of nodes of the built document; Tree::is_empty says that there is none; Node::is_empty says that the node has no children.", "quantifier": "every history of builder calls, every node", "why_tests_cant": "all histories", "anchors": ["src/tree.rs: Tree::len, Tree::is_empty", "src/node.rs: Node::is_empty, Node::has_children"]}
{"id": "C47", "title": "What Debug and print show determines the tree", "statement": "The Debug form of a Tree lists every node in document order with its depth, value and span; two trees (of any flavors, however built) have the same Debug entries, and the same printed lines, exactly when they are the same document, which is exactly when == says they are equal.", "quantifier": "every pair of built trees", "why_tests_cant": "injectivity over all pairs of trees", "anchors": ["src/tree.rs: impl Debug for Tree", "src/node/node_impl.rs: impl Debug for Node", "src/print.rs: print"]}
{"id": "C48", "title": "Structured use of a builder builds what a tree-returning parser would return", "statement": "A program that only emits tokens, brackets stretches of itself with open..close, and takes checkpoints that it closes (any number of times, with the checkpoint still its own) as a recursive-descent parser does, with ? after every call, ends in a tree or in Overflow. The tree is the one obtained by reading open..close as 'node over the trees of the body' and close_at as 'put all trees since the checkpoint under a new node', laid out over the text without gaps; Overflow cannot occur while the nodes fit the pointer width and the text fits the index. In every flavor, the Empty one included, Overflow happens exactly when there are more nodes than the width allows, more text than the index type holds, or as many nodes as allowed and a checkpoint is taken after the last of them.", "quantifier": "every structured program, every vec flavor (positions where the index is not Empty)", "why_tests_cant": "all programs of any nesting, all sizes", "anchors": ["src/builder.rs: Builder::open, Builder::close, Builder::token, Builder::checkpoint, Builder::close_at, Builder::build", "examples/math.rs", "examples/calculator/grammar.rs"]}
{"id": "C49", "title": "The math example: every text is parsed, expressions get their trees", "statement": "For every source text the program examples/math.rs ends with a tree or with Overflow (the latter only if the nodes or the text do not fit): its lexer cuts the text into lexemes, each as long as possible; the tree is Root over the one forest its grammar (values, then multiplication, then addition, all associating to the left, errors and white space kept as nodes) gives for the tokens; the leaves are the tokens up to where the parser stopped. For every arithmetic expression, written with any white space, the tree is the syntax tree of the expression with * and / binding stronger than + and -, associating to the left.", "quantifier": "every source text; every expression of any length with any white space; every vec flavor (positions where the index is not Empty)", "why_tests_cant": "all texts, all expressions", "anchors": ["examples/math.rs: lexer, Parser::peek, Parser::bump, Parser::parse_val, Parser::handle_operation, Parser::parse", "src/builder.rs"]}
{"id": "C50", "title": "The calculator example: every text is parsed into the tree of its grammar, nothing is lost", "statement": "For every source text the lexer of examples/calculator yields lexemes, each as long as it can be, that concatenate to the source, and then nothing; and parsing ends (without a panic or a wrong builder call) with a tree or with Overflow. The tree is the one forest that the grammar (precedence climbing with left associative operators, groups in parentheses, error nodes around what does not fit) gives for the tokens; its tokens, without the empty end-of-file tokens, are exactly the tokens of the source in order, so the text is recovered, also for ill-formed input. Overflow cannot occur while five nodes per character fit the pointer width and the text fits the index.", "quantifier": "every source text; every vec flavor (positions where the index is not Empty)", "why_tests_cant": "all texts, well-formed or not, of any length and nesting", "anchors": ["examples/calculator/lexer.rs: Lexer::next", "examples/calculator/parsing.rs: Parser", "examples/calculator/grammar.rs: root, expr", "src/builder.rs"]}
{"id": "C51", "title": "The calculator example: evaluation always answers, and expressions get their value", "statement": "For every source text the calculator ends with a list of values and errors, one per expression, never with a panic. An arithmetic expression of numbers, + - * / ^ and parentheses, written with any white space (but none right after an opening parenthesis, and no parenthesis right inside another), has one result: its exact value when all intermediate values fit 64 bits, with ^ over * and / over + and -, all associating to the left, and otherwise the error of the first operation from the left that does not fit or divides by zero. (With white space or a parenthesis right after an opening parenthesis the program reports an error: ( 1) and ((1)).)", "quantifier": "every source text; every expression of any size; every vec flavor (positions where the index is not Empty)", "why_tests_cant": "all texts, all expressions", "anchors": ["examples/calculator/eval.rs: eval", "examples/calculator/main.rs", "src/node/mod.rs: Node::first, Node::children", "src/node/skip_tokens.rs"]}
{"id": "C52", "title": "Range queries: what they answer, for every tree", "statement": "Each token is filed in the tree under a key: its end if it was made by token with a non-empty length (empty ones are not filed), its start if it was made by token_with; in a tree made by ChangeSet::modify every non-empty childless node is filed under its start. If the keys strictly ascend in the order the tokens were made, node_with_range(s..e) and node_with_span answer: nothing when no key is above s; otherwise the token with the smallest key above s is found and the answer is its closest strict ancestor that ends at or after e, or the last ancestor before the top. In a modified tree of a source without turned-around childless spans the keys always ascend, so a query from the start of a token is answered from the following token, and modified trees that compare equal answer every query alike.", "quantifier": "every history, every flavor with an index store, every change set, every binary search meeting the documented contract, every range", "why_tests_cant": "all trees and all ranges", "anchors": ["src/tree.rs: Tree::node_with_range, Tree::node_with_span", "src/builder.rs: Builder::token, Builder::token_with", "src/edit.rs: ChangeSet::modify"]}
{"id": "C53", "title": "Checkpoints passed between builders cannot corrupt a tree", "statement": "With any number of builders (new or cloned) and checkpoints of one used on another, in any order: every call returns with success or CloseError, CloseAtError, Overflow or MissingNode; every link of every builder's tree stays in bounds; every walk, iterator and search on it ends; calls change only the builder they are made on; identifiers keep their values. MissingNode is returned exactly when the checkpoint lies below the currently open node but past the number of nodes of this builder; that refused call still adds its node (under the number in the error). Builders that use only their own checkpoints, in any interleaving, answer and build as if each were alone.", "quantifier": "every interleaving of calls on any number of builders, every checkpoint used on every builder", "why_tests_cant": "liveness and safety over all interleavings of misuse; documentation only says close_at 'might sporadically error'", "anchors": ["src/builder.rs: close_at, close_at_with, checkpoint, clone", "src/builder/checkpoint.rs: Checkpoint", "src/error.rs: Error::MissingNode"]}
{"id": "C54", "title": "Printed text is exact and can be read back", "statement": "print and print_with_source hand the sink, for every tree, exactly the lines of the document in order (two spaces per level, the value's Debug text, '@', start..end in decimal, then nothing for nodes with children, the quoted source slice, or ' +'), stop at the first write the sink refuses and return its error, and return Ok otherwise: a buffer of n bytes receives the first n bytes and an error is returned iff there are more. Two trees print alike iff they are the same document, if no value's Debug text contains a newline or starts with a space (with a source shown: if it can be told where the value and the quoted text end). The same for the Debug text of a tree. Errors other than the storage's own are known from their messages. From Rust 1.87 on, print panics at the first node nested deeper than 32767 levels, after writing the lines before it.", "quantifier": "every tree obtained from a builder or from modify, every value type and Debug text, every sink and every point at which it fails, every source lookup", "why_tests_cant": "tests compare a few printed trees; ambiguity, deep nesting and failures at any byte range over all trees and sinks", "anchors": ["src/print.rs: print, print_with_source, print_with_lookup", "src/span.rs: Display for Span, Debug for Span", "src/tree.rs: Debug for Tree", "src/node/node_impl.rs: Debug for Node", "src/error.rs: Display for Error"]}
{"id": "C55", "title": "The synthetic_strings example: every text is cut into words, kept in the tree, and evaluated without a panic", "statement": "For every source text and every set of definitions, examples/synthetic_strings cuts the text in exactly one way into words (runs of white space, of ASCII letters, a dollar sign with small letters, anything else up to white space) that together are the text; the tree has one root per word, at the word's byte positions, with a defined variable pointing to its definition (the latest, if there are several); evaluation prints words and values, numbered together, and undefined variables and other words as errors, in order. It never panics on a slice and never fails to end; it fails with Overflow only, and not when the tree and the text are small enough for the flavor.", "quantifier": "every text of any length and characters; every list of definitions; every vec flavor (positions where the index is not Empty)", "why_tests_cant": "all texts, all definitions", "anchors": ["examples/synthetic_strings.rs: lexer, Storage, main", "src/builder.rs: Builder::token, Builder::build", "src/tree.rs: Tree::children", "src/node/mod.rs: Node::range"]}
{"id": "C56", "title": "One walk can be asked in any way and continued in any form", "statement": "On one Walk, next() and next_with_depth() may be mixed freely: every call takes the next node of the walk, with its depth if asked for, and after the last one all answer None. At any point the walk can be continued as it is, with with_depths(), skip_tokens() or inside(): the first three yield exactly the nodes not taken yet (those with children for skip_tokens). inside() yields the next node if the walk is about to enter it (at the start of walk(), or when it is a child or the next sibling of the last node taken), and then whatever follows as long as it is deeper than the node the walk was started at: within the subtrees of n and its later siblings that is the rest of the subtree the walk is in. After taking n from n.walk() these are n's strict descendants, except that when n has no children it is the whole subtree of n's next sibling.", "quantifier": "every tree built or returned by modify, every start (tree.walk(), n.walk(), n.walk_from()), every sequence of calls of any length", "why_tests_cant": "all tree shapes, all interleavings and all points of conversion", "anchors": ["src/node/walk.rs: Walk::next, Walk::next_with_depth, Walk::with_depths, Walk::inside, Inside", "src/node/skip_tokens.rs: SkipTokens"]}
{"id": "C57", "title": "What came out of modify is in its final form", "statement": "A tree returned by ChangeSet::modify is a fixed point of modifying without changes: an empty ChangeSet applied to it always succeeds and returns a tree that is the same in every link, span and index entry. (When a token's span was given backwards by the caller, the tree itself is reproduced at once but its index only from the second time on.)", "quantifier": "every tree from a builder, modified any number of times, every set of removals", "why_tests_cant": "all tree shapes, all change sets, chains of modifications", "anchors": ["src/edit.rs: ChangeSet::modify, RefactorWalk"]}
{"id": "C58", "title": "A modified tree can be used like a built one, without the exceptions", "statement": "Whatever ChangeSet::modify returns is a complete tree: every node is found by its identifier, identifiers count the nodes in walk order, parent/prev/next/first/last agree, and walk, with_depths, walk_events, inside, walk_from, children (from both ends, in any interleaving, also with skip_tokens), siblings, ancestors and find_preceding answer exactly for the document of the tree. last(), rev() and the way down of find_preceding, which can be stale in a tree from a builder that used close_at, are always right here. Equality compares built and modified trees, of any flavors, by their documents.", "quantifier": "every tree returned by modify for any set of removals, from any builder, through any number of modifications; every schedule of calls on the iterators", "why_tests_cant": "all tree shapes, all change sets, all schedules", "anchors": ["src/edit.rs: ChangeSet::modify", "src/node/children.rs", "src/node/walk.rs", "src/node/node_impl.rs: find_preceding", "src/tree.rs: Tree::last, PartialEq"]}
{"id": "C59", "title": "Flavors differ in their limits only", "statement": "Run the same calls on a builder in two flavors that both keep positions (index u32 or usize, any widths, any targets, the same kinds of storage). Unless a call is refused with Overflow, every call gives the same result, the builders and checkpoints are equal, build() gives the same tree, its walks (walk_events, walk, with_depths, of the tree and of any node) go through the same nodes with the same depths, print and Debug give the same text, modify() gives the same tree, and node_with_range() gives the same answer for ranges that both index types can hold. The first result that differs comes at or after a call that one of the flavors refused with Overflow; a flavor with more room never refuses what the other accepted. For a range end beyond u32::MAX node_with_range() of a u32 flavor answers None where a usize flavor finds a node.", "quantifier": "every pair of such flavors, every sequence of builder calls, every tree, every change set, every range", "why_tests_cant": "all flavors, all histories", "anchors": ["src/flavor.rs: Flavor, flavor!", "src/pointer.rs: Width", "src/index.rs: Index", "src/builder.rs: Builder", "src/tree.rs: node_with_range", "src/edit.rs: ChangeSet::modify"]}
{"id": "C60", "title": "Identifiers and spans are sound keys of maps", "statement": "Identifiers compare (Ord, Eq, Hash) like the positions they stand for, in every width: equal ones and only those are ==, compare Equal and hash the same, and of two identifiers returned by one builder the earlier is the smaller; the identifiers returned are exactly 0, 1, 2, ... as get() shows them, whatever calls failed in between. Spans are ordered by their start, then by their end: a total order that agrees with == and with Hash. In a tree built with plain calls the tokens in walk order are in the order of their spans.", "quantifier": "every width, index type and target, every pair and triple of identifiers or spans, every history of builder calls", "why_tests_cant": "all values of all widths, all histories", "anchors": ["src/pointer.rs: derive(PartialOrd, Ord, Hash)", "src/span.rs: derive(Eq, PartialOrd, Ord, Hash), PartialEq", "src/empty.rs: Empty"]}
{"id": "C61", "title": "A tree keeps its contract through any history of replace() and modify()", "statement": "Take a built tree and call replace() on its nodes and modify() on the tree in any order, any number of times. The document the tree shows after each call is determined by the document before it: replace() changes one value and returns the one before, modify() gives what C33 says of the current values, and the only failure is Overflow when a modified tree does not fit. At every point all theorems about built or about modified trees hold. The last value put in counts; putting the old value back undoes a replace(); replace() on two nodes can be done in either order. modify() copies values without looking at them: mapping all values commutes with it, and no value appears that was not in the tree.", "quantifier": "every built tree, every sequence of replace and modify calls, every change set and value", "why_tests_cant": "all histories of edits of all trees", "anchors": ["src/node/node_impl.rs: Node::replace", "src/edit.rs: ChangeSet::modify", "src/tree.rs: Tree"]}
{"id": "C62", "title": "Which nodes lie where in the text", "statement": "In a tree built without explicit spans or set_cursor (open, token, close, checkpoint and close_at), take a byte position p before the end of the text. There is one childless node whose span has p, and the nodes whose span has p are exactly that node and its ancestors, nothing else. No span ends after the end of the text. If node i comes before node j in the walk, then j starts no earlier than i, and either j is inside i or j starts at or after the end of i; the latter also holds for every tree returned by modify().", "quantifier": "every history without explicit spans and every position; every modified tree and every pair of nodes", "why_tests_cant": "all trees, all positions and all pairs of nodes", "anchors": ["src/builder.rs: Builder::{open,token,close}", "src/node/node_impl.rs: Node::{span,ancestors}", "src/node/walk.rs: Walk", "src/edit.rs: ChangeSet::modify"]}
{"id": "C63", "title": "A tree can be built again from its walk", "statement": "Go through walk_events() of a tree and call open for a node with children, token with the length of its span for a node without, and close on the way up, on a new builder of any flavor with spans. The only failure is Overflow, exactly when nodes or text do not fit the new flavor. Otherwise build() gives a tree with the same shape and values, its tokens side by side from 0 with the same lengths and every node covering its contents. For a tree built without explicit spans (checkpoints or not) the two trees are equal (==). For a tree from modify() the tokens are the same and the ends of nodes, which modify() gets wrong (C32), are right; this always succeeds in the tree's own flavor. Doing it again makes the same calls.", "quantifier": "every tree from a builder (any calls) or from any history of modify and replace; every pair of flavors with spans", "why_tests_cant": "all trees, all histories and all flavors", "anchors": ["src/node/walk_events.rs: WalkEvents", "src/builder.rs: Builder::{open,token,close,build}", "src/tree.rs: Tree::{walk_events, eq}", "src/edit.rs: ChangeSet::modify"]}
{"id": "C64", "title": "Misused checkpoints lose no nodes, and ChangeSet repairs the tree", "statement": "Whatever sequence of calls a builder received (checkpoints used twice, used after the node they point at was wrapped, closed at another level, calls that failed), a tree that build() returns can be read with Tree::first, Node::first and Node::next: the reading is finite, and every node of the tree occurs in it exactly once. ChangeSet::modify works on that reading for every set of changes, and with no changes it returns a tree with the same nodes in which walk, parent, prev and last agree with the reading again, even where they did not before.", "quantifier": "every sequence of builder calls with any arguments (no restriction on how checkpoints are used), followed by any sequence of modify and replace calls with any change sets; every flavor with Vec storage", "why_tests_cant": "The ways in which stale checkpoints can be combined are unbounded, and each combination leaves other links inconsistent; tests show a few combinations.", "anchors": ["src/builder.rs: Builder::checkpoint, Builder::close_at, Builder::insert", "src/links.rs: Links", "src/node.rs: Node::first, Node::next, Node::has_children", "src/tree.rs: Tree::first", "src/edit.rs: ChangeSet::modify"]}
{"id": "C65", "title": "Every sequence of builder calls has one meaning, also with misused checkpoints", "statement": "Whatever sequence of calls a builder receives, with any arguments and with checkpoints used in any way (again, late, after their place was swallowed by another close_at, at another level), what each call returns and the resulting tree follow simple rules: a new node goes right behind the last finished one, or into the innermost open node when it has none; close_at takes the node at the checkpoint and all its later siblings, wherever they are by now, under a new node that names the parent the first of them named, and moves the checkpoint to that node; spans, cursor and errors as in the docs. The tree's nesting and order as Tree::first, Node::first and Node::next show them, Node::parent of each node, the number of nodes, cursor, Tree::span and the success of build() are exactly those. Node::prev is always the way back of Node::next. When checkpoints are used as intended this is the document of C01.", "quantifier": "every sequence of builder calls with any arguments and any use of checkpoints; every flavor with Vec storage, of any width", "why_tests_cant": "Sequences of calls are unbounded and the interesting ones combine stale checkpoints in ways nobody lists; a test shows one outcome.", "anchors": ["src/builder.rs: Builder::{open,open_with,close,token,token_with,token_empty,checkpoint,close_at,close_at_with,set_cursor,build,insert,restructure_close_at}", "src/builder/checkpoint.rs: Checkpoint", "src/node.rs: Node::{first,next,prev,parent}", "src/tree.rs: Tree::first"]}
{"id": "C66", "title": "Builder calls never disturb the nodes that are there", "statement": "Compare the tree under construction at two moments, whatever was called before and in between (misused checkpoints and failed calls included). Every node of the earlier one is in the later one under the same identifier, with the same value; the nodes of the earlier one stand in the later one in the same document order; which of them is inside which has not changed; and the span of a node that was not open at the earlier moment has not changed.", "quantifier": "every sequence of builder calls, every split of it in two, every node and pair of nodes; every flavor with Vec storage", "why_tests_cant": "It relates all pairs of moments of all histories.", "anchors": ["src/builder.rs: Builder::{open,close,token,token_with,checkpoint,close_at,close_at_with,insert,restructure_close_at}"]}
{"id": "C67", "title": "Where nodes say they are, and where walks go, after any history", "statement": "For the tree read off after any builder calls, misused checkpoints included: the parent() of a node is always one of the nodes it is read inside through first() and next(), or none; the first of a row of siblings always names the node whose children they are; ancestors() of a node gives the node and then nodes it is read inside, from the inside out, possibly with some left out. walk_events, walk().with_depths() and walk() always end and take one determined tour: down and along the rows of first() and next(), and up to the parent that the last node of a row names, at one depth less per climb. Hence a walk visits nodes in document order, none twice; and if every node names the node whose child it is, it visits every node, with its proper depth.", "quantifier": "every sequence of builder calls with any use of checkpoints whose node count fits the depth type; every node of the tree; every flavor with Vec storage", "why_tests_cant": "Misused checkpoints give trees whose parent links disagree with first/next in unboundedly many ways; that walks still end and never repeat a node must hold for all of them.", "anchors": ["src/node.rs: Node::{parent,first,next,ancestors,walk,walk_events}", "src/node/walk_events.rs: WalkEvents::{next,step}", "src/node/walk.rs: Walk, WithDepths", "src/node/ancestors.rs: Ancestors", "src/builder.rs: Builder::{close_at,close_at_with,restructure_close_at,insert}"]}
{"id": "C68", "title": "Last children, children from both ends and range queries, after any history", "statement": "For the tree read off after any builder calls, misused checkpoints included: the last() of every node and of the tree follows one determined rule per call; it is always a node inside that node, though not always one of its children, and it is none exactly for a node without children (a tree without nodes). children() from the front yields the children up to the last() one, all of them when that one is not among them; from the back it yields the last() one and those before it in its own row; mixed calls take from these two until one is used up or they meet. node_with_range goes to the first token filed after the position that the binary search reports, and gives the first of its ancestors() that ends at or after the end of the range, the outermost one if there is none. The observations together (the document read, parent(), last(), the span, the filed positions) determine the tree completely: two histories that agree on them give equal trees.", "quantifier": "every sequence of builder calls with any use of checkpoints; every node; every outcome of the binary search; every flavor with Vec storage", "why_tests_cant": "last() and children() can disagree with first()/next() only after particular interleavings of checkpoints; no finite set of histories covers all of them, nor does a test fix which of several equal positions a binary search reports.", "anchors": ["src/node/node_impl.rs: Node::{last,children}", "src/tree.rs: Tree::{last,children,node_with_range}", "src/node/children.rs: Children::{next,next_back}", "src/builder.rs: Builder::{insert,close_at,restructure_close_at,token,token_with}"]}
{"id": "C69", "title": "Equality, print and Debug after any history", "statement": "For trees read off after any builder calls, misused checkpoints included, and of any two flavors: == always answers, and it answers true iff the walks of the two trees show the same depths, spans and equal values in the same order; it is reflexive, symmetric and transitive when the comparison of values is. print, print_with_source and Debug list exactly what the walk shows, and two trees are equal iff Debug lists the same entries, iff print writes the same lines (so what is shown also tells which nodes have children). If every node names the node whose child it is, that is the whole document; otherwise equality does not see nodes that the walk misses.", "quantifier": "every pair (triple) of sequences of builder calls with any use of checkpoints, whose node counts fit the depth type; every pair of flavors with Vec storage; every comparison of values; every source text", "why_tests_cant": "An equivalence relation and an iff between three operations range over all pairs and triples of histories; misused checkpoints give depths and parent links that no test suite enumerates.", "anchors": ["src/tree.rs: PartialEq for Tree, Debug for Tree", "src/node/node_impl.rs: PartialEq, Debug for Node", "src/print.rs: print, print_with_source, print_with_lookup", "src/node/walk.rs: WithDepths"]}
{"id": "C70", "title": "Walks from a node, inside, siblings, find_preceding and skip_tokens after any history", "statement": "For a tree read off after any builder calls, misused checkpoints included: n.walk() (as nodes, with depths, as events, and inside()) starts with n and makes exactly the visits that the children lists and the parents named by parent() determine; it visits nodes in document order, only nodes after n, each at most once. n.walk_from() climbs from n the same way. inside() is exactly the subtree of n in document order when every node below n names the node whose child it is; with a misused checkpoint it can leave the subtree. siblings() is n with the later children of the node among whose children n is read. find_preceding always answers: it asks prev() of n and of each of ancestors() in turn and then follows last() as long as the predicate holds, asking the predicate about exactly those nodes in that order. children().skip_tokens(), driven from both ends in any order, always answers, and each answer is the next one of children() from that end that has children.", "quantifier": "every sequence of builder calls with any use of checkpoints whose node count fits the depth type; every node; every flavor with Vec storage; every predicate with state; every interleaving of next and next_back", "why_tests_cant": "Misused checkpoints produce parent links that differ from the children lists in unboundedly many shapes; tests look at a few, while termination and the order of visits must hold for every history and every start node.", "anchors": ["src/node/walk.rs: Walk, Inside, WithDepths", "src/node/walk_events.rs: WalkEvents", "src/node/node_impl.rs: walk, walk_from, siblings, find_preceding, ancestors", "src/node/skip_tokens.rs: SkipTokens", "src/node/children.rs: Children", "src/builder.rs: close_at"]}
{"id": "C71", "title": "Misused, modified, replaced: every way to a tree is covered", "statement": "Take any tree: from any history of builder calls (checkpoints misused or not), then changed by any sequence of ChangeSet::modify and Tree::replace calls. (a) modify depends only on what can be read through first and next: values, nesting and the spans of childless nodes; two trees that agree in these give the same result for every change set. (b) For every tree from a builder there are calls of open, token_with and close alone whose tree reads the same. (c) So every such tree is either the tree of some builder history or a proper modified tree (for which every documented answer holds); its links are those of a tree from a builder, none leaves the tree, every iterator ends and every search returns. (d) == between any two such trees, of any flavors, compares exactly what the two walks show (depth, value, span); print and Debug list exactly that; after a modify it is every node.", "quantifier": "all flavors with Vec storage, all histories of builder calls with any arguments of their types, all sequences of modify and replace calls afterwards, all change sets, all pairs of such trees", "why_tests_cant": "It ranges over unbounded histories of builder calls, including those with misused checkpoints, mixed with unboundedly many changes of the finished tree; the trees are linked structures in which a wrong link shows only in some orders of calls.", "anchors": ["src/edit.rs: ChangeSet::modify", "src/tree.rs: Tree::replace, PartialEq, Debug", "src/builder.rs: Builder", "src/print.rs: print_with_lookup", "src/node/walk.rs", "src/node.rs"]}
{"id": "C72", "title": "Every tree! literal is read in one way", "statement": "tree! and tree_with! accept exactly the documented literal syntax: items separated by commas with an optional last comma; a value alone is an empty token (unless it is a pair), (value, length) a token, (value, (start, end)) a token with that span, value => { .. } a node and (value, (start, end)) => { .. } a node with that span. Every accepted input can be read as one literal only and expands to the calls of that literal, so the tree is the literal's document or Error::Overflow. The only further limit is how deep macro invocations may nest: one per item of a list plus those inside its nodes; a list longer than the recursion limit does not compile.", "quantifier": "all sequences of token trees (any nesting of parentheses and braces, any expressions as leaves), all recursion limits, all meanings of the expressions", "why_tests_cant": "The eleven arms are tried in order and overlap ((a, (b, c)) matches four of them); which arm wins for which input, and that no literal is swallowed by an earlier arm, is a statement over all token sequences.", "anchors": ["src/macros.rs: tree!, tree_with!"]}
{"id": "C73", "title": "The benchmark program builds and counts what it means to, and cannot panic", "statement": "benches/comparisons.rs: for every list of strings, every count and every flavor, syntree_build returns exactly the tree with one root and a token per string taken in turn (starting again after the last), and syntree_tree the tree with an entry node and a blank per string, laid out without gaps (without lengths in the Empty flavor); they end with Error::Overflow if and only if there are more nodes than the width can number or more text than the index type can hold. On every tree syntree_tree returns, root.children().count() is twice the number of strings taken and root.children().skip_tokens().count() is that number. generate_random, with any random generator, never trips its assertion, and if it ends gives the requested number of strings of min to max+2 bytes without whitespace, each one beginning with the one before. So with the strings of the program, in all its flavors and sizes, no expect or unwrap fails. The strings are exactly these: each goes on from the one before with the drawn numbers that are Unicode scalar values and not whitespace, in order, as many as are needed and no more to reach a byte length drawn between min and max.", "quantifier": "all lists of strings, counts, flavors with Vec storage, random generators, both usize widths", "why_tests_cant": "A benchmark run uses one seed and five sizes; the claims are about every generator, every list of strings, every count up to and beyond the exact limits of every flavor.", "anchors": ["benches/comparisons.rs: syntree_build, syntree_tree, setup, generate_random", "src/builder.rs: Builder::checkpoint, token, open, close, close_at, build", "src/node/children.rs: Children", "src/node/skip_tokens.rs: SkipTokens"]}
{"id": "C74", "title": "The alternate Debug text of trees ({:#?}) is exact and can be read back", "statement": "Formatting a tree with {:#?} (as dbg! does) gives, for every tree, exactly one block per node of the document in order: its depth, its value's own text and its span, each on its own line at its nesting level, further lines of a value's text moved to the same level, the empty tree as 'Tree(\\n    [],\\n)'; it depends on the value's text only, not on how its Debug writes it in pieces. The same for a node alone. Two trees have the same text if and only if they are the same document, if the values' texts (of any number of lines) can be told apart once a comma follows.", "quantifier": "every tree obtained from a builder or from modify, every value type, every Debug text in any pieces, all flavors (reading back: those with positions)", "why_tests_cant": "nesting, sizes and value texts (with newlines and commas in them) are unbounded; ambiguity ranges over all pairs of trees", "anchors": ["src/tree.rs: Debug for Tree", "src/node/node_impl.rs: Debug for Node", "src/span.rs: Debug for Span"]}
{"id": "C75", "title": "After any history, also with misused checkpoints, print and Debug give exactly the text of what a walk shows, and trees are equal exactly when their texts are", "statement": "For every tree however obtained (any builder calls, checkpoints used in any order, then any calls of modify and replace): the depths of walk().with_depths() are never negative and never below the number of nodes around the node (they can be above it: print can indent a root as if it were a child); so print never computes a negative indentation, and into any writer it writes exactly one line per shown node, stopping at the writer's first error or at an indentation beyond the toolchain's limit; {:?} and {:#?} are exactly the texts of the shown nodes. Two trees of any flavors with positions compare equal if and only if their print texts are the same, if and only if their {:?} texts are, if and only if their {:#?} texts are, for values that are equal only if the same and whose texts can be told apart.", "quantifier": "all histories of builder calls with any use of checkpoints, all following calls of modify and replace, all flavors, writers, sources and value types", "why_tests_cant": "the misuses of checkpoints have no bound, and the claim is about all pairs of trees", "anchors": ["src/print.rs: print_with_lookup", "src/tree.rs: Debug for Tree, PartialEq for Tree", "src/node/walk.rs: WithDepths", "src/builder.rs: Builder::close_at"]}
{"id": "C76", "title": "The flavor! macro compiles exactly the documented calls, gives exactly the flavors a builder can use, and ignores `type Storage`", "statement": "A call of flavor! compiles if and only if between the braces there is `type Index = ..`, then at most one `type Width`, at most one `type Storage`, at most one `type Indexes`, in this order, with an index among u32, usize and Empty, an unsigned width and indexes that cannot fail; the flavor then has that index, that width or usize if there is none, those indexes or Vec if there are none, and Vec as its storage. Every flavor that builders and trees can have without failing storage comes from such a call. `type Storage = ..` is accepted with any type and changes nothing.", "quantifier": "all token sequences between the braces (types as single tokens), all targets' usize", "why_tests_cant": "a macro that rejects a call is a compile error, and the sequences of tokens have no bound", "anchors": ["src/flavor.rs: flavor!, Flavor"]}
{"id": "C77", "title": "capacity() is never less than len(), grows only when a node needs it, and modify starts from the capacity of the tree it is given", "statement": "For every allocator that meets the contract of Vec: after any calls, also failing ones and misused checkpoints, and in every clone, a builder has room for all its nodes, and so has every tree however obtained (new, built, cloned, changed by replace, made by modify): capacity() >= len(). A call that returns no new node changes nothing in the storage, a call that returns one allocates only if the capacity is used up, and no call gives capacity back. The result of modify has at least the capacity of the tree it was given, and if it fits into that, nothing is allocated after the first allocation. (It may not fit although modify only removes: removing an only child adds a node.)", "quantifier": "all allocators, all histories, all following clones and calls of modify and replace", "why_tests_cant": "a test sees one allocator and one growth policy", "anchors": ["src/tree.rs: Tree::capacity, Tree::with_capacity, Tree::push", "src/flavor.rs: Storage for Vec", "src/edit.rs: ChangeSet::modify"]}
{"id": "C78", "title": "The texts of identifiers, spans, errors and events determine them, and an identifier is shown as its position of insertion", "statement": "{:?} of an identifier returned by a builder call is the decimal number of the nodes inserted before, for every width, and the same for id() of that node; two identifiers of one width have the same text if and only if they are equal. The Display text start..end and the Debug text (start, end) of a span with positions each determine it. The Debug text of an Error determines it, MissingNode's number and the flavor's own error included; source() is there exactly for the flavor's own error, whose message is then the whole message. The Debug texts of the three events differ.", "quantifier": "all histories and calls, all flavors and targets, all spans and errors", "why_tests_cant": "the numbers have no bound below the width, and a text is ambiguous only for some pairs", "anchors": ["src/pointer.rs: Debug", "src/span.rs: Display, Debug", "src/error.rs: Error, source", "src/node/walk_events.rs: Event"]}
{"id": "C79", "title": "Replacing values while an iterator is under way does not disturb it", "statement": "If replace() is called on any nodes between the calls of an iterator (walk, walk with depths, walk with events, inside, children from both ends, siblings, ancestors), the iterator gives exactly the nodes, depths and events, in the order, that it gives when nothing is replaced; value() of a node it gives is the one last put there, or the original; and each replace() returns the value the node had just before.", "quantifier": "all tables of nodes, all flavors, all interleavings of iterator calls and replacements at any nodes, all iterator states", "why_tests_cant": "the interleavings and the places of the replacements relative to the iterator have no bound", "anchors": ["src/node/node_impl.rs: Node::replace, Node::value", "src/links.rs: Links (data: Cell)", "src/node/walk_events.rs: WalkEvents::next", "src/node/walk.rs: Walk, WithDepths, Inside", "src/node/children.rs: Children", "src/node/siblings.rs: Siblings", "src/node/ancestors.rs: Ancestors"]}
