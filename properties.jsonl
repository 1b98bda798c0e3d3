{"id": "C01", "title": "Applying a text edit replaces exactly the edited ranges", "statement": "Applying an edit whose changes are sorted, disjoint and inside the text yields the original text in which every changed range is replaced by its new text and every other character is kept, all offsets referring to the original text. The application does not panic and its final length check holds.", "quantifier": "every text and every sorted disjoint in-bounds list of changes", "why_tests_cant": "The number of changes, their lengths and adjacency are unbounded; unit tests cover three-change examples.", "anchors": ["crates/ide-db/src/text_edit.rs: TextEdit::apply, TextChange::apply"]}
{"id": "C02", "title": "Finishing an edit builder keeps the requested changes and the order does not matter", "statement": "For changes added to an edit builder whose ranges are pairwise disjoint, finish succeeds, the finished edit is sorted and disjoint, and applying it has the same effect as applying the added changes. Permuting the order in which changes at different offsets are added does not change the resulting text. When the same non-empty deletion is added twice (which the builder accepts) the text is still changed only once.", "quantifier": "every list of added changes and every text", "why_tests_cant": "The set of change lists is infinite and the interaction of sort, disjointness check and coalescing is order dependent.", "anchors": ["crates/ide-db/src/text_edit.rs: TextEditBuilder::{add_change,finish}, check_disjoint_and_sort, coalesce_text_changes"]}
{"id": "C03", "title": "Union of two edits applies both or changes nothing", "statement": "Merging two edits of one file either fails and leaves the receiver as it was, or yields an edit that has the effect of both edits simultaneously, with deletions and replacements common to both performed once. Whether two edits can be merged does not depend on which one is the receiver.", "quantifier": "every pair of well-formed edits and every text", "why_tests_cant": "Pairs of edit lists are unbounded; the merge is order sensitive at equal offsets.", "anchors": ["crates/ide-db/src/text_edit.rs: TextEdit::union", "crates/ide-db/src/source_change.rs: SourceChange::insert_source_edit"]}
{"id": "C04", "title": "Offset mapping through an edit tracks the same character", "statement": "Mapping an offset through an edit never fails: it returns nothing exactly for offsets strictly inside a replaced range, and otherwise an offset such that the text before the old offset, edited by the changes that start before it, is exactly the text before the new offset, and likewise for the text after. In particular a character at whose offset no change starts is found again at the new offset, and the mapping is monotone.", "quantifier": "every well-formed edit, text and offset", "why_tests_cant": "Quantifies over all edits and offsets; off-by-one errors at range borders are only visible for particular combinations.", "anchors": ["crates/ide-db/src/text_edit.rs: TextEdit::apply_to_offset"]}
{"id": "C05", "title": "Line ending normalisation removes exactly the CR of each CRLF", "statement": "Normalising a text removes every carriage return that is immediately followed by a line feed and no other byte, reports DOS endings exactly when at least one was removed, never reads or writes out of bounds, and normalising again changes nothing.", "quantifier": "every byte string", "why_tests_cant": "The in-place gap-buffer loop with an unsafe set_len must be right for all interleavings of CR and LF, of which there are infinitely many.", "anchors": ["crates/stdext/src/line_endings.rs: LineEndings::normalize"]}
{"id": "C06", "title": "Line endings round trip", "statement": "A text that uses one line ending style throughout is reproduced byte for byte by normalising it and mapping the result back with the reported style.", "quantifier": "every byte string with uniform line endings (mixed files are the boundary of the claim)", "why_tests_cant": "Universal statement over texts.", "anchors": ["crates/stdext/src/line_endings.rs: LineEndings::{normalize,map}", "crates/aptos-language-server/src/lsp/to_proto.rs: lsp_text_edit"]}
{"id": "C07", "title": "Incremental document synchronisation is sequential application", "statement": "After a change notification the server's text equals the text obtained by applying the notification's content changes one after another, each interpreted in the document state left by the previous one, exactly as the protocol requires, although the server rebuilds its line table only when it thinks it must.", "quantifier": "every document, every list of content changes (whole document or ranges with start line not after end line), every position encoding", "why_tests_cant": "The optimisation that reuses a stale line table is only wrong for particular sequences of multi-line edits; sequences are unbounded.", "anchors": ["crates/aptos-language-server/src/lsp/utils.rs: apply_document_changes", "crates/aptos-language-server/src/lsp/from_proto.rs: offset, text_range"]}
{"id": "C08", "title": "Client positions decode to in-bounds character boundaries", "statement": "Converting a client position to an offset either fails or yields an offset inside the document, on the line the client named (or its end), and converting an offset to a position and back gives the same offset, for UTF-8, UTF-16 and UTF-32 columns.", "quantifier": "every document, offset, position and encoding", "why_tests_cant": "Universal over texts with arbitrary non-ASCII content.", "anchors": ["crates/aptos-language-server/src/lsp/from_proto.rs: offset, text_range", "crates/aptos-language-server/src/lsp/to_proto.rs: lsp_position"]}
{"id": "C09", "title": "Completion edits reported disjoint are disjoint", "statement": "The check that decides whether a completion may carry additional edits answers yes exactly when no two of the main edit and the additional edits overlap (and an insert range is a prefix of its replace range).", "quantifier": "every completion item and list of additional edits", "why_tests_cant": "Adjacent-pair checks after sorting must be equivalent to all-pairs disjointness for all lists.", "anchors": ["crates/aptos-language-server/src/lsp/utils.rs: all_edits_are_disjoint"]}
{"id": "C10", "title": "Semantic token encoding is decodable", "statement": "Decoding the relative semantic-token stream by the protocol's rules gives back the absolute position, length, type and modifiers of every pushed token, for every sequence of tokens pushed in document order; encoding does not underflow.", "quantifier": "every position-sorted sequence of single-line tokens", "why_tests_cant": "Sequences are unbounded; the first-token special case and same-line/new-line cases interact.", "anchors": ["crates/aptos-language-server/src/lsp/semantic_tokens.rs: SemanticTokensBuilder::{push,build}"]}
{"id": "C11", "title": "Semantic token deltas reconstruct the new tokens", "statement": "Applying the delta returned for two token lists to the old list (as the client does, on the flat integer array) gives exactly the new list, and the delta is empty when nothing changed.", "quantifier": "every pair of token lists", "why_tests_cant": "All pairs of lists, including overlapping common prefix and suffix.", "anchors": ["crates/aptos-language-server/src/lsp/semantic_tokens.rs: diff_tokens"]}
{"id": "C12", "title": "Syntax highlighting ranges tile the requested range", "statement": "After any series of nested-or-disjoint highlight insertions, the flattened highlights are non-empty, sorted, adjacent and cover exactly the requested range, and every offset carries the highlight of the smallest inserted range containing it (the latest one among equals). The insertion does not panic for ranges inside the root that are nested or disjoint.", "quantifier": "every sequence of insertions", "why_tests_cant": "The tree is rebuilt incrementally with a fast path and a splice; all insertion orders matter.", "anchors": ["crates/ide/src/syntax_highlighting/highlights.rs: Node::{add,flatten}, Highlights::to_vec"]}
{"id": "C13", "title": "Tree diff turned into a text edit reproduces the new tree", "statement": "The text edit computed from an old and a new syntax tree, applied to the old tree's text, gives the new tree's text. (Claimed for trees without empty elements; with empty nodes the order of edits at one offset can go wrong.)", "quantifier": "every pair of syntax trees", "why_tests_cant": "Trees are unbounded; the lookahead heuristic and hash-map ordered edits at equal offsets make it order sensitive.", "anchors": ["crates/ide-db/src/syntax_helpers/tree_diff.rs: tree_diff, TreeDiff::into_text_edit", "crates/ide-db/src/source_change.rs: SourceChangeBuilder::commit"]}
{"id": "C14", "title": "Tokenisation is lossless and total", "statement": "Tokenising a source text never panics and yields tokens of positive length whose lengths add up to the text's length, so that concatenating the token texts gives back the source.", "quantifier": "every source text", "why_tests_cant": "Input space is all strings, including non-ASCII text and unterminated literals and comments.", "anchors": ["crates/syntax/src/parse/lexer.rs: tokenize, parse_simple_token", "crates/syntax/src/parse/lexer/move_model.rs: find_token"]}
{"id": "C15", "title": "Token kind sets behave as sets", "statement": "Membership in a token set built from a list of kinds, by union, or by removal is exactly membership in the corresponding mathematical set, for every token kind the lexer can produce that the parser can look at.", "quantifier": "every token set expression and every kind", "why_tests_cant": "A 128-bit mask indexed by a kind number: kinds at or above 128 alias in release builds.", "anchors": ["crates/syntax/src/parse/token_set.rs: TokenSet"]}
{"id": "C16", "title": "Every parse produces one well-formed tree", "statement": "Whatever sequence of parser primitives a grammar performs (start, complete, abandon, precede, rollback, bump, error) respecting the marker discipline, replaying the resulting events yields balanced start/finish calls: exactly one root, no dangling or crossing nodes, and nodes completed by the grammar appear with the kind given.", "quantifier": "every program over the parser primitives and every token sequence", "why_tests_cant": "Quantifies over all event sequences; forward-parent links rearrange starts non-locally.", "anchors": ["crates/syntax/src/parse/parser.rs: Parser::{start,bump,do_bump,error,push_event}, Marker::{complete,abandon,rollback}, CompletedMarker::precede", "crates/syntax/src/parse/event.rs: process"]}
{"id": "C17", "title": "The syntax tree contains the whole source text", "statement": "The tree built for a source text contains, in order, every token of the text including whitespace and comments exactly once, so the tree's text is the source text. This holds for any grammar that consumes all significant tokens.", "quantifier": "every token sequence with trivia and every balanced event sequence consuming all tokens", "why_tests_cant": "Comments and whitespace attach to different nodes depending on context; loss or duplication shows only for particular layouts.", "anchors": ["crates/syntax/src/parse/text_tree_sink.rs: TextTreeSink", "crates/syntax/src/parse/text_token_source.rs", "crates/syntax/src/parse/event.rs: process"]}
{"id": "C18", "title": "Parser backtracking leaves no trace", "statement": "Rolling a marker back restores the token position, the events and the errors to what they were when the marker was created, so a failed speculative parse is unobservable.", "quantifier": "every parser state and every sequence of primitives between start and rollback", "why_tests_cant": "All speculative parses of all inputs.", "anchors": ["crates/syntax/src/parse/parser.rs: Marker::rollback"]}
{"id": "C19", "title": "Composite operators are recognised exactly when written without spaces", "statement": "The parser sees a multi-character operator (such as `==>`, `&&`, `>>`, `..=`) at a position exactly when the corresponding single tokens follow each other in the source with nothing between them.", "quantifier": "every token sequence and position", "why_tests_cant": "Depends on adjacency bits over all token streams.", "anchors": ["crates/syntax/src/parse/parser.rs: Parser::{nth_at,at_composite2,at_composite3}", "crates/syntax/src/parse/text_token_source.rs: is_jointed_to_next"]}
{"id": "C20", "title": "Binary operators parse with Move precedence and associativity", "statement": "For every expression made of atoms and binary operators the parsed tree is the one given by the operator precedence table: higher binding operators are nested deeper and operators of equal precedence associate to the left.", "quantifier": "every sequence of atoms and binary operators", "why_tests_cant": "Expressions of unbounded length; tests fix a few shapes.", "anchors": ["crates/syntax/src/parse/grammar/expressions.rs: expr_bp, current_op"]}
{"id": "C21", "title": "List parsing with error recovery terminates and makes progress", "statement": "Parsing a delimited list consumes input on every iteration or stops, so it terminates for every input and every element parser that either consumes a token or reports that it did not.", "quantifier": "every token sequence, separator, terminator and element parser", "why_tests_cant": "Termination for all malformed inputs cannot be tested.", "anchors": ["crates/syntax/src/parse/grammar/utils.rs: delimited_with_recovery, list", "crates/syntax/src/parse/parser.rs: iterate_to_EOF"]}
{"id": "C22", "title": "Inference variable classes form an equivalence and keep their value", "statement": "After any sequence of variable-variable and variable-value unifications that does not fail, two variables have the same representative exactly when they were connected by the unifications, and a variable's value is the value given to any variable of its class.", "quantifier": "every sequence of unifications, snapshots and rollbacks", "why_tests_cant": "Histories are unbounded.", "anchors": ["crates/lang/src/types/unification.rs: UnificationTable::{unify_var_var,unify_var_value,resolve_to_root_var,resolve_to_ty_value}"]}
{"id": "C23", "title": "Speculative type checking has no effect on inference", "statement": "Asking whether two types are compatible, or running any computation inside a frozen inference context, leaves every inference variable exactly as it was, whatever the computation did and however frozen computations are nested.", "quantifier": "every inference state and every computation", "why_tests_cant": "Histories with nested snapshots are unbounded.", "anchors": ["crates/lang/src/types/inference.rs: InferenceCtx::{freeze,msl_scope}", "crates/lang/src/types/unification.rs: snapshot, rollback"]}
{"id": "C24", "title": "Successful type unification makes the types compatible", "statement": "If combining an expected and an actual type succeeds then, after substituting the solution for the inference variables, the two types are equal up to the documented compatibilities (Unknown with anything, Never into anything, `&mut` where `&` is expected, integer kinds, single-element tuples, callables).", "quantifier": "every pair of types and every inference state", "why_tests_cant": "Types are recursive; soundness must hold for all shapes and all sharing of variables.", "anchors": ["crates/lang/src/types/inference/combine_types.rs: combine_types, combine_no_vars, unify_ty_var, unify_int_var"]}
{"id": "C25", "title": "Type unification does not crash or loop", "statement": "Combining two types and resolving the result terminates and does not panic: no unification produces a variable that contains itself, and a variable is never given two different values.", "quantifier": "every pair of types and every reachable inference state", "why_tests_cant": "A cyclic solution appears only for particular variable sharing; it is a stack overflow that kills the server.", "anchors": ["crates/lang/src/types/inference/combine_types.rs: unify_ty_var, ty_contains_ty_var, unify_ty_vars_with_unknown", "crates/lang/src/types/unification.rs: unify_var_value", "crates/lang/src/types/fold.rs: TyVarResolver"]}
{"id": "C26", "title": "Compatibility checks respect the direction of references", "statement": "A mutable reference is accepted where an immutable one is expected and an immutable reference is rejected where a mutable one is expected, in checked coercions as well as in the compatibility queries used for operators and completion.", "quantifier": "every type and both query paths", "why_tests_cant": "Two code paths must agree for all types; argument order is invisible for non-reference types.", "anchors": ["crates/lang/src/types/inference/combine_types.rs: is_tys_compatible, coerce_types, combine_ty_refs", "crates/lang/src/types/ty/reference.rs: autoborrow"]}
{"id": "C27", "title": "Type parameter substitution is a homomorphism", "statement": "Substituting type parameters in a type replaces exactly the parameters the substitution maps, leaves closed types unchanged, commutes with resolving inference variables that are closed under it, and composing two substitutions equals substituting once with the composed substitution.", "quantifier": "every type and substitution", "why_tests_cant": "Types are recursive and unbounded.", "anchors": ["crates/lang/src/types/substitution.rs: Substitution, ApplySubstitution", "crates/lang/src/types/fold.rs: TyTypeParameterFolder"]}
{"id": "C28", "title": "Resolved types contain no solvable variables", "statement": "A fully resolved type mentions no inference variable that has a value, and the types stored in the finished inference result mention no inference variable at all.", "quantifier": "every inference state and type", "why_tests_cant": "Universal over states.", "anchors": ["crates/lang/src/types/inference.rs: resolve_ty_vars_if_possible, fully_resolve_vars", "crates/lang/src/types/inference/inference_result.rs"]}
{"id": "C29", "title": "Every client request is answered exactly once", "statement": "For every history of client messages, worker completions, cancellations and retries, no request receives two responses, and when the server is idle every request it received has been answered (with a result, an error, or a cancellation).", "quantifier": "every schedule of client messages and worker task completions", "why_tests_cant": "Schedules are unbounded and racy: a cancel can cross a worker result or a retry.", "anchors": ["crates/aptos-language-server/src/main_loop.rs: on_new_request, on_request, handle_task", "crates/aptos-language-server/src/global_state.rs: respond, cancel, is_completed", "crates/aptos-language-server/src/handlers/dispatch.rs: RequestDispatcher"]}
{"id": "C30", "title": "After shutdown every request is refused", "statement": "Once a shutdown request was accepted, every later request is answered with an invalid-request error and no handler runs for it.", "quantifier": "every continuation of the session after shutdown", "why_tests_cant": "Histories are unbounded.", "anchors": ["crates/aptos-language-server/src/main_loop.rs: on_request"]}
{"id": "C31", "title": "A requested reload is never lost and never runs twice at once", "statement": "Whenever a workspace reload was requested, a reload starts after the request once the running one has completed, at most one reload runs at a time, and a reload started after a request that asked for a forced reload is forced.", "quantifier": "every sequence of reload requests, starts and completions", "why_tests_cant": "Interleavings of requests with a running reload are unbounded.", "anchors": ["crates/aptos-language-server/src/op_queue.rs: OpQueue", "crates/aptos-language-server/src/main_loop.rs: after_handle_event"]}
{"id": "C32", "title": "The server reports ready only when everything is loaded", "statement": "The server treats the project as fully loaded only when no reload is running and the file loader has finished delivering the files of the latest configuration; progress of an older configuration never makes it ready.", "quantifier": "every interleaving of loader progress, configuration switches and reload completions", "why_tests_cant": "Races between loader progress and configuration switches.", "anchors": ["crates/aptos-language-server/src/reload.rs: is_project_fully_loaded, switch_workspaces", "crates/aptos-language-server/src/main_loop.rs: handle_vfs_msg"]}
{"id": "C33", "title": "Open documents are never overwritten by the disk", "statement": "While a document is open in the editor the server's text for it is the text given by the editor's open and change notifications; file-system events do not alter it; after it is closed the disk content is used again.", "quantifier": "every interleaving of editor notifications and file-watcher deliveries", "why_tests_cant": "Interleavings are unbounded and depend on timing of the watcher.", "anchors": ["crates/aptos-language-server/src/handlers/notification.rs: on_did_open, on_did_change, on_did_close", "crates/aptos-language-server/src/main_loop.rs: load_files_into_vfs", "crates/aptos-language-server/src/opened_files.rs"]}
{"id": "C34", "title": "Applying a batch of file changes keeps the database consistent", "statement": "Applying any batch of file creations, modifications and deletions together with a new package layout does not crash, and afterwards each file known to the database has the newest text and belongs to the package whose root contains it.", "quantifier": "every history of batches", "why_tests_cant": "The crash needs a deletion in the same batch as a layout change.", "anchors": ["crates/base-db/src/change.rs: FileChanges::apply", "crates/base-db/src/inputs.rs: Files", "crates/aptos-language-server/src/file_changes.rs"]}
{"id": "C35", "title": "Package dependency closure is exact", "statement": "The dependencies computed for a package are exactly the packages reachable through the declared dependencies, each once, and the computation terminates for cyclic declarations.", "quantifier": "every finite dependency graph, cyclic or not", "why_tests_cant": "Graphs are unbounded and may be cyclic.", "anchors": ["crates/project-model/src/aptos_package/load_from_fs.rs: collect_deps_transitively, collect_reachable_manifests"]}
{"id": "C36", "title": "Each file is assigned to the innermost package root", "statement": "Partitioning the files into package roots puts every file in exactly one partition: that of the longest package directory prefix containing it, or the unassigned partition.", "quantifier": "every set of package folders and file paths", "why_tests_cant": "All path sets, including nested packages.", "anchors": ["crates/project-model/src/project_folders.rs: partition_into_package_roots, ProjectFolders::new"]}
{"id": "C37", "title": "Address comparison is an equivalence that ignores leading zeros", "statement": "Two address expressions denote the same account for name resolution exactly when they are the same name or their numeric values agree after removing leading zeros; the relation is reflexive, symmetric and transitive, and numerically equal hexadecimal addresses are identified.", "quantifier": "all addresses and all named-address assignments", "why_tests_cant": "Universal over strings.", "anchors": ["crates/lang/src/nameres/address.rs: Address::equals_to, NumericAddress::short"]}
{"id": "C38", "title": "Private items are visible only where Move allows", "statement": "An item is reported visible from a context only if the context is a specification or attribute, the item and context share a module or script, or the item's visibility (public, friend, package) together with its test/verify scope admits the context; test-only items are never visible from non-test code.", "quantifier": "every combination of item, context and module/friend/package structure", "why_tests_cant": "Combination space of contexts is large and relations (friends) are unbounded.", "anchors": ["crates/lang/src/nameres/is_visible.rs: is_visible_in_context"]}
{"id": "C39", "title": "Item scopes follow the nearest annotated ancestor", "statement": "The scope (main, test, verify) computed for a node is its own explicit scope if it has one, otherwise that of the nearest enclosing node that has one, otherwise main.", "quantifier": "every syntax tree", "why_tests_cant": "Trees are unbounded; the one-pass walk with a stack must agree with the recursive definition.", "anchors": ["crates/lang/src/item_scope.rs: item_scopes"]}
{"id": "C40", "title": "Completion ranking is consistent", "statement": "An item that is in scope is always ranked above an item that is out of scope, the score never overflows, and making one criterion better never lowers the score.", "quantifier": "every pair of relevance records", "why_tests_cant": "Relational property over all pairs.", "anchors": ["crates/ide-completion/src/item.rs: CompletionRelevance::score"]}
{"id": "C41", "title": "Inner scopes shadow outer scopes", "statement": "Walking the enclosing scopes yields an entry exactly when it has an allowed namespace and the wanted name and no scope further in has an entry of the same namespace and name; a path that resolves to one item resolves to a visible, unshadowed one with that name.", "quantifier": "every list of scopes with every entries, every set of namespaces, every name", "why_tests_cant": "Nesting depth and scope contents are unbounded, and the rule is about the absence of entries.", "anchors": ["crates/lang/src/nameres/name_resolution.rs: get_entries_from_walking_scopes", "crates/lang/src/nameres/path_resolution.rs: resolve_path, apply_function_special_case_filter"]}
{"id": "C42", "title": "A local variable is visible only after its statement and is the latest of its name", "statement": "In a block, a binding is offered at a point exactly when its let statement ends before the point and no later such statement binds the same name; every name is offered once.", "quantifier": "every block, every point in it", "why_tests_cant": "The number of statements and rebindings is unbounded.", "anchors": ["crates/lang/src/nameres/blocks.rs: get_entries_in_blocks"]}
{"id": "C43", "title": "Reverse package dependencies invert the dependencies", "statement": "A package is among the reverse dependencies of another one exactly when that one is among its dependencies (both include the package itself), and the missing dependencies reported for a package are those recorded for it and its dependencies; none of the queries panics when metadata is set for every manifest and a package for every dependency.", "quantifier": "every package database state", "why_tests_cant": "The tests use one or two packages; the relation must agree for every graph.", "anchors": ["crates/lang/src/hir_db.rs: transitive_dep_package_ids, missing_dependencies, reverse_transitive_dep_package_ids"]}
{"id": "C44", "title": "Every source file is parsed to the end into one complete tree", "statement": "For every source text the parser terminates; unless it panics, the events replay to a single SOURCE_FILE node, every significant token has been consumed, and the text of the tree is the source text, however malformed the input is.", "quantifier": "every token sequence, hence every source text whose block comments are tokenized correctly", "why_tests_cant": "The parser is mutually recursive with backtracking and error recovery; the golden files exercise 181 inputs, the claim is about every malformed file.", "anchors": ["crates/syntax/src/parse.rs: parse_text", "crates/syntax/src/parse/grammar.rs: entry_points::source_file", "crates/syntax/src/parse/grammar/*.rs"]}
{"id": "C45", "title": "Parsing never panics", "statement": "No source text makes the parser panic (assertions, unclosed markers, counters).", "quantifier": "every token sequence", "why_tests_cant": "Panics sit behind combinations of tokens no test writes down.", "anchors": ["crates/syntax/src/parse/grammar.rs: module", "crates/syntax/src/parse/grammar/specs/behavior.rs", "crates/syntax/src/parse/grammar/specs/schemas.rs", "crates/syntax/src/parse/grammar/specs/proofs_and_lemmas.rs"]}
{"id": "C46", "title": "The type of two branches is one both can have", "statement": "Joining the types of two branches: a branch that never returns contributes nothing; two references give a reference that is mutable exactly if both are; otherwise the result is the first branch's type or unknown.", "quantifier": "every inference state and pair of types", "why_tests_cant": "Tests try a few pairs; the rule must hold with variables solved in any way.", "anchors": ["crates/lang/src/types/inference/combine_types.rs: intersect_types"]}
{"id": "C47", "title": "Error recovery stays inside braces", "statement": "A block, a list of items, a statement or an expression that starts inside a pair of matching braces is parsed without going past the closing brace, whatever tokens are in between; so an unfinished function cannot swallow the one after it.", "quantifier": "every token list, every place in it, every parser state and recovery context, every depth of nesting", "why_tests_cant": "The parser tests have some dozens of broken files; which tokens the recovery loops skip depends on the recovery set built up by all the enclosing functions.", "anchors": ["crates/syntax/src/parse/parser.rs: error_and_recover, with_recovery_token_set, reset_recovery, iterate_to_EOF", "crates/syntax/src/parse/grammar/expressions/blocks.rs: block_expr, stmt", "crates/syntax/src/parse/grammar/items.rs: item_list, item", "crates/syntax/src/parse/grammar/utils.rs: delimited_with_recovery"]}
{"id": "C48", "title": "Well-formed files are read as what they are", "statement": "A file built from modules, scripts and address blocks with uses, friends, constants, structs, enums and functions, and from the types, patterns, statements and expressions of Move (specifications apart), is parsed without an error and without a panic; its tree is exactly the one its grammar gives, with every character of the file; and the grammar gives one tree only.", "quantifier": "every file of a grammar with 203 productions, of any length and nesting, with any whitespace and comments, in debug and release builds", "why_tests_cant": "The parser tests compare some hundreds of files with their trees; that two constructs do not disturb each other (an operator after a block, a list in a list, a contextual keyword as a name) is a statement about all combinations.", "anchors": ["crates/syntax/src/parse/grammar.rs", "crates/syntax/src/parse/grammar/expressions.rs", "crates/syntax/src/parse/grammar/expressions/atom.rs", "crates/syntax/src/parse/grammar/types.rs", "crates/syntax/src/parse/grammar/patterns.rs", "crates/syntax/src/parse/grammar/paths.rs", "crates/syntax/src/parse/grammar/items.rs"]}
{"id": "C49", "title": "A batch of syntax edits is applied in full", "statement": "When a quick fix asks the syntax editor for several insertions, replacements and deletions that do not touch each other, the editor returns the tree in which each of them is made at its place and nothing else is different; it neither panics nor drops the batch, and the order in which the changes were asked for does not matter.", "quantifier": "every tree, every number and order of insertions, replacements and deletions at any depth that are pairwise apart", "why_tests_cant": "The fixes are tested with one or two changes at a time; the sort, the conflict check, the dependency tracking and the mutation of a shared tree interact only in larger batches.", "anchors": ["crates/syntax/src/syntax_editor.rs: SyntaxEditor, Change, Position", "crates/syntax/src/syntax_editor/edit_algo.rs: apply_edits, disjoint_replaces_ranges, ChangedAncestor, TreeMutator", "crates/ide-db/src/source_change.rs: SourceChangeBuilder::commit"]}
{"id": "C50", "title": "Removing unused imports removes exactly them", "statement": "Deleting the unused items of a use group leaves the used items, in their order, separated by one comma and space each, and changes nothing else in the file.", "quantifier": "every file, every use group on one line of any number of items, every set of unused items that leaves at least two", "why_tests_cant": "Which separator goes with an item depends on its place in the group and on which of its neighbours go too: there are 2^n subsets of a group, and the tests never remove two neighbours.", "anchors": ["crates/syntax/src/syntax_editor/node_ext/use_stmt.rs: UseStmt::delete_group_use_specks", "crates/syntax/src/syntax_editor/node_ext/use_speck.rs: UseSpeck::delete", "crates/syntax/src/syntax_editor.rs: delete_comma_sep_list_element", "crates/ide-diagnostics/src/handlers/unused_import/organize_imports.rs"]}
{"id": "C51", "title": "Only unused imports are reported as unused", "statement": "No import that some path of the program uses is reported as unused or removed when imports are organised, a whole use statement is reported only if nothing it imports is used, and every import no path mentions is reported.", "quantifier": "every module, specification, script and block, any use statements with groups, aliases and Self, any nesting of scopes with shadowing, main, test and verify scopes, all paths", "why_tests_cant": "Whether an import is used depends on all paths of a module and its specification files, their nesting, scopes and shadowing; the tests show single statements with one path. No test uses an enum variant.", "anchors": ["crates/ide-diagnostics/src/handlers/unused_import.rs: find_unused_imports, find_unused_use_items, unused_use_kind", "crates/ide-diagnostics/src/handlers/unused_import/use_items.rs: find_use_item_hit_for_path, BasePathType::for_path", "crates/lang/src/nameres/use_speck_entries.rs: use_items_for_stmt", "crates/lang/src/hir_db/use_items_ext.rs"]}
{"id": "C52", "title": "Imports suggested as test-only are needed by tests only", "statement": "An import is offered to become #[test_only] exactly if it is a main import, some test uses it and nothing outside tests does.", "quantifier": "every scope, all use statements and paths, main, test and verify scopes", "why_tests_cant": "A universal statement over all uses of an import; accepting a wrong suggestion breaks the non-test build.", "anchors": ["crates/ide-diagnostics/src/handlers/reduced_scope_import.rs: find_use_items_with_redundant_main_scope", "crates/ide-diagnostics/src/handlers/unused_import/use_items.rs"]}
{"id": "C53", "title": "Expanding the selection always grows it, step by step, up to the whole file", "statement": "Expand selection turns every selection into a larger one around it until the whole file is selected, so the list of ranges sent for a selectionRange request is finite, properly nested and ends with the file. A non-empty selection never jumps over an element that is properly around it. An identifier at the cursor is selected first; list items take their comma along, adjacent comments are selected together, and a cursor in a comment or byte string selects the word.", "quantifier": "every syntax tree, every selection or cursor position in it, every notion of word character", "why_tests_cant": "A termination and nesting claim about all trees and positions; the request handler loops until the range stops changing, so a range that moves without growing would hang the server.", "anchors": ["crates/ide/src/extend_selection.rs", "crates/aptos-language-server/src/handlers/request.rs: handle_selection_range"]}
{"id": "C54", "title": "Parameter hints and completion know which argument the cursor is in", "statement": "Signature help is shown for the innermost argument list, type argument list or struct literal around the cursor, and the highlighted argument is the number of commas of that list before the cursor. In a struct literal the field at the cursor is highlighted, or the first field that is not filled yet. The ranges of the parameters in the label are exactly the texts of the parameters. The expected type offered to completion comes from the same call and the same argument.", "quantifier": "every syntax tree, every cursor position in it, every list of declared fields and parameters", "why_tests_cant": "Claims about all positions in all nestings of calls; tests look at one cursor in one call, and the cursor just before a comma or in a chained method call is the place where the two features disagree.", "anchors": ["crates/ide-db/src/active_parameter.rs", "crates/ide/src/signature_help.rs", "crates/syntax/src/algo.rs: ancestors_at_offset, skip_trivia_token"]}
{"id": "C55", "title": "Find usages reports every use of a name, once", "statement": "Find usages reports exactly the names in the searched ranges that are spelled like the item and refer to it, each once, and never panics, whatever other text contains the spelling. A local binding is looked for wherever it is visible: parameters in the function and its specs, lambda parameters in the lambda, bindings of a match arm in the arm, let bindings in the block, loop indices in the loop. Narrowing a search to a scope keeps exactly the places that are in both.", "quantifier": "every syntax tree and text, every identifier, every set of ranges, every binding in the tree, every answer of name resolution", "why_tests_cant": "The search is textual, so it depends on what stands around each occurrence of the spelling; and whether the scope of a binding is large enough is a claim about every place in which it is visible.", "anchors": ["crates/ide-db/src/search.rs", "crates/syntax/src/ast/node_ext/ident_pat.rs"]}
{"id": "C56", "title": "Renaming keeps fields and variables what they were", "statement": "The edits of a rename never collide: for any set of distinct references and a definition, the edits of all of them can be applied together, and applying them replaces each name and nothing else. In struct literals and patterns a field keeps its value and a variable its field: `f: e` becomes `n: e` (or `n`, if e is n), `f` becomes `n: f` if the field is renamed and `f: n` if the variable is. The new name is accepted only if it is one token that can be a name, and the renamed item is still an item.", "quantifier": "every syntax tree with the shape the parser gives to fields and names, every list of distinct references and every definition, every new name", "why_tests_cant": "Several edits of one rename meet in one struct literal or pattern, so whether they can be merged depends on all references together; the tests cover seven files.", "anchors": ["crates/ide-db/src/rename.rs", "crates/ide-db/src/source_change.rs", "crates/ide/src/rename.rs"]}
{"id": "C57", "title": "A stored location finds the node it was taken from", "statement": "The location kept for a syntax node (its kind and range) leads back to that very node in the same tree, two different nodes never share a location, and asking whether a location contains another element answers exactly whether the element lies below the node. If a location leads to a node, that node has the stored kind and range.", "quantifier": "every syntax tree whose nodes are not empty and in which no node is the only content of a node of the same kind; every node of it", "why_tests_cant": "Locations are keys of caches and of the inference results; two nodes sharing one would be confused silently, and which nodes can share a range depends on the whole tree, including erroneous code that is being typed.", "anchors": ["crates/lang/src/loc.rs"]}
{"id": "C58", "title": "Well-typed code gets no type errors", "statement": "The walk over the body of a function that infers the types of its expressions ends without reporting a type error if the body is well-typed: literals, variables, calls and methods of functions with and without type parameters, literals and fields of structs with and without type parameters, vectors, tuples, ranges, conditionals, loops, return, abort, assert and assert_eq, casts, annotations, `is`, borrows, dereferences, indexing, blocks, operators, assignments, match with guards, and let with and without types and with patterns. The type it gives to an expression stands for the type the expression has.", "quantifier": "every function body built from these forms that has a type by the rules of the language, every typing of its parameters, of the fields of structs and of the functions called", "why_tests_cant": "The inference solves constraints left to right with unification tables and expectations; whether a false error appears depends on the order in which partial knowledge about variables arrives, over all programs.", "anchors": ["crates/lang/src/types/inference/ast_walker.rs", "crates/lang/src/types/inference/combine_types.rs", "crates/lang/src/types/expectation.rs"]}
{"id": "C59", "title": "Patterns bind variables with the types of the matched parts", "statement": "A pattern that fits the type of the matched value is walked without reporting an error, and every variable in it gets the type of the part of the value at its place in the pattern: behind a reference if the pattern goes through one (mutable only if all references passed are), counted from the end behind a `..`. No other variable changes its type.", "quantifier": "every pattern built from names, literals, ranges, tuples, parentheses, wildcards, struct and tuple struct patterns with `..`, every type it fits, every typing of fields, every typing of the variables in scope", "why_tests_cant": "Patterns nest without bound, and positions around `..` depend on the numbers of patterns and fields; tests fix a few shapes.", "anchors": ["crates/lang/src/types/patterns.rs", "crates/lang/src/types/inference/ast_walker.rs"]}
{"id": "C60", "title": "Ability errors follow the rules of Move", "statement": "An ability is reported as missing for a type argument, written or inferred, or for the field of a struct, only if it is demanded there (by a bound of the type parameter; by an ability the struct declares) and the type does not have it by the rules of Move, in which a generic struct has an ability only if the types for its non-phantom type parameters allow it. Every missing ability of a type without type arguments is reported.", "quantifier": "every type, every declaration of abilities of structs and bounds of type parameters, every list of type arguments", "why_tests_cant": "Abilities of nested generic types and the conversion from key to store combine without bound; a false error on correct code or a missed one shows only for the right nesting.", "anchors": ["crates/lang/src/types/ty_db/path.rs", "crates/lang/src/types/abilities.rs", "crates/lang/src/types/inference/combine_types.rs", "crates/ide-diagnostics/src/handlers/ability_checking.rs"]}
{"id": "C61", "title": "A written type is read as the type it names", "statement": "A written type in which every path names a built-in type, a type parameter or a struct, enum or schema with as many type arguments as it has type parameters is read as that type, with each argument in the place of its parameter, also if the arguments mention the same type parameters. Explicit type arguments of a call replace the type parameters in the types of parameters and of the result, and are not overwritten by type variables. The number of type arguments is reported as wrong exactly where the type cannot be read.", "quantifier": "every written type of any depth, every assignment of type parameters to items, every function type and list of type arguments", "why_tests_cant": "Substitution mistakes (arguments shifted by one, substituted twice, captured by parameters of the same item) need arguments that mention parameters of the item itself, at some depth.", "anchors": ["crates/lang/src/types/ty_db.rs", "crates/lang/src/types/ty_db/path.rs", "crates/lang/src/types/ty_db/function.rs", "crates/lang/src/types/inference.rs", "crates/ide-diagnostics/src/handlers/missing_type_arguments.rs"]}
{"id": "C62", "title": "Quick fixes that rewrite expressions build the expression they intend", "statement": "The syntax factory, which parses a text with the new expression in a function, gives exactly the node of that expression whenever the expression is spelled with the parentheses that the order of operators asks for, and never panics then. The fixes meet this: x = x op e becomes x op= e with the operator of op; *vector::borrow(&v, i) becomes v[i]; f(&x, ..) becomes a method call on x, in parentheses if x is not atomic; a redundant cast becomes its operand and the tree that results is the tree of its text.", "quantifier": "every expression of any depth, every text that spells it", "why_tests_cant": "Whether parentheses are needed depends on the operators above and below the rewritten expression, at every depth; tests only have names and simple fields there.", "anchors": ["crates/syntax/src/ast/syntax_factory.rs", "crates/syntax/src/ast/syntax_factory/exprs.rs", "crates/ide-diagnostics/src/handlers/can_be_replaced_with_compound_expr.rs", "crates/ide-diagnostics/src/handlers/can_be_replaced_with_index_expr.rs", "crates/ide-diagnostics/src/handlers/can_be_replaced_with_method_call.rs", "crates/ide-diagnostics/src/handlers/redundant_cast.rs"]}
{"id": "C63", "title": "The outline of a file nests as its named elements do", "statement": "The document symbols sent to the client contain every named element of the file that has a name exactly once, in the order of the file, each with the range of the element, the range of its first name and the text of that name. A symbol is a child of the innermost named element around it. The range of a name lies in the range of its element, children lie in their parents and siblings do not overlap. Neither the walk with its stack nor the indices into the flat list can panic. The flat list has the same symbols in the same order, each with the label of its parent.", "quantifier": "every tree of any depth in which a NAME node begins with a token", "why_tests_cant": "The hierarchy is rebuilt from the end of a flat list with indices while entries are removed; whether every index is still valid and the order is restored depends on depth and number of siblings at all levels.", "anchors": ["crates/ide/src/file_structure.rs", "crates/ide-db/src/lib.rs", "crates/aptos-language-server/src/handlers/request.rs", "crates/aptos-language-server/src/lsp/to_proto.rs"]}
{"id": "C64", "title": "Inlay hints are shown where they belong, whatever part of the file is visible", "statement": "The hints for a range of the file are exactly the hints of the whole file that lie in it, in the same order: skipping subtrees that do not meet the range loses none. A variable of a let or a lambda without a type gets its type after its name, or after the colon that is there. An argument is labelled with the name of its own parameter, for calls by a dot counted without the receiver, unless the argument already has the name in it. The label of a type says what was written, with the links where they were written. A hint sent without its links gets them when the client asks for them, and does not change otherwise.", "quantifier": "every tree, every range, every configuration, all types and functions, every hash that tells the hints of the file apart", "why_tests_cant": "Whether skipping a subtree loses a hint depends on where its range lies in relation to the nodes around it, and a hint with a colon lies partly outside its node; resolving makes the hints again with another configuration and finds one by its hash.", "anchors": ["crates/ide/src/inlay_hints.rs", "crates/ide/src/inlay_hints/ident_pat.rs", "crates/ide/src/inlay_hints/param_name.rs", "crates/ide/src/inlay_hints/range_exclusive.rs", "crates/lang/src/node_ext/callable.rs", "crates/aptos-language-server/src/handlers/request.rs"]}
{"id": "C65", "title": "Wrong numbers of arguments and missing fields are reported exactly", "statement": "A call in which every argument has an expression gets exactly one error if the number of its arguments is not one that what is called takes, and none otherwise; methods take one less than their parameters, assertions one to six or two to seven. The error is at the closing parenthesis if there are too few, at the first argument too many otherwise, and always inside the call. A struct literal, and a pattern without two dots, gets one error that names exactly the fields declared and not given, in the order of the declaration, and none if there are none. A pattern with parentheses gets an error if it has fewer parts than there are fields. Names of fields are read from full and from short forms.", "quantifier": "every tree of a call, literal or pattern, every number of parameters and every declaration", "why_tests_cant": "Numbers of arguments, orders of fields, mixtures of short and full forms and incomplete arguments combine without bound; tests show single combinations.", "anchors": ["crates/ide-diagnostics/src/handlers/call_params.rs", "crates/ide-diagnostics/src/handlers/missing_fields.rs", "crates/syntax/src/ast/node_ext/struct_lit_field.rs", "crates/syntax/src/ast/node_ext/struct_pat_field.rs", "crates/syntax/src/ast/node_ext/assert_macro_expr.rs"]}
{"id": "C66", "title": "A label means a loop around it", "statement": "The loops a label may mean are exactly the for, while and loop expressions around it with no function, specification function, lemma, constant or lambda in between. A label resolves to a loop exactly if that loop is the only one of these that declares the label; this never panics in a tree in which every declaration of a label has a name. Completion offers exactly the labels of these loops, those of inner loops first; continue and break are offered exactly if there is such a loop.", "quantifier": "every tree of a file and every place in it", "why_tests_cant": "Loops, lambdas and functions nest without bound and in every order; tests show one loop or two.", "anchors": ["crates/lang/src/nameres/labels.rs", "crates/lang/src/nameres.rs", "crates/syntax/src/ast/node_ext/loop_label.rs", "crates/ide-completion/src/completions/reference/labels.rs", "crates/ide-completion/src/completions/reference/paths.rs"]}
