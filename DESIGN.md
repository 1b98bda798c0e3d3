# Design of the formal model

Subject: `move-vscode-extension` (Rust language server for Move on Aptos), source in `/repo`
(read as text, never built). The model is written in Coq 8.16.1, in `rocq/theories`, logical name
`Verif`.

## Method

* Each modelled Rust function becomes a small total Gallina function of the same shape; the comment
  above the definition cites the file and lines it models and says what was simplified.
* A panic (`assert!`, failed `expect`, slice out of bounds, `unwrap`) is an explicit result
  (`Panic`), never silently totalised. Loops are structural recursion, or recursion on fuel where the
  out-of-fuel result is a separate constructor that theorems have to exclude.
* Byte offsets are `nat`. `u32`/`usize` overflow is not modelled except where the property is about it.
* Text is a list of bytes (`list N`), as in Rust's `String`; char boundaries are modelled by
  looking at continuation bytes where the Rust code would panic on a non-boundary.
* For each area `X`: `XModel.v` (code), `XSpec.v` (independent specification), `XProofs.v` (lemmas) and
  `XProps.v` (theorems that are claimed, non-vacuity `Example`s, `Print Assumptions`).
* If the English property is false of the faithful model, a theorem `..._refuted` exhibits the
  counterexample and a `..._partial` theorem proves the largest true part.

## Trusted base

* Coq's kernel (8.16.1), including `vm_compute`.
* Axioms: none. Every claimed theorem is followed by `Print Assumptions` in its `XProps.v`; each prints
  "Closed under the global context". `coqchk` additionally lists the seven constants
  `Coq.ssr.ssrunder.Under_rel.*` of the standard library (an opaque module of ssreflect loaded by the
  library itself); no theorem here depends on them.
* That the Gallina definitions are faithful to the cited Rust lines. This is checked by reading; for lexer,
  grammar, event replay and tree sink together it was also checked by running the extracted model outside
  this repository on the 181 parser test files of `/repo/crates/syntax/tests`: all 181 golden trees are
  reproduced exactly, in the debug profile.
* Behaviour of code outside `/repo`, modelled from documentation or published source: `String::replace_range`,
  `str::lines`, slice `sort_by_key` (stable), `itertools::{merge_by, dedup_by, coalesce, kmerge_by}`,
  `memmem::Finder`, `line-index`, `rowan::GreenNodeBuilder`, `text-size`, `regex` (three patterns, written out
  and specified as relations), `unicode-segmentation` (a parameter: any function giving at least one
  character), `lsp_server::ReqQueue`, `stdx`, `vfs`, `vfs-notify`, `crossbeam` channels (any delivery order),
  `HashMap` iteration (any order), `salsa` (queries are functions; cancellation is an event of the schedule).

## What is modelled

| files | code | simplified or left out |
|---|---|---|
| TextEdit | `ide-db/src/text_edit.rs` | annotations |
| LineEndings | `stdext/src/line_endings.rs` | |
| LspText | `lsp/{from_proto,to_proto,utils}.rs`, positions and document changes | `u32` overflow of offsets |
| CompletionEdits, Ranking | `lsp/utils.rs` disjointness; `ide-completion/src/item.rs` scores, sort text | |
| SemTokens, Highlights | `lsp/semantic_tokens.rs`; `ide/src/syntax_highlighting/highlights.rs` and traversal | highlight tags are numbers |
| TokenSet, SyntaxKind | `parse/token_set.rs`, the kinds | |
| Parser | `parse/parser.rs`, `event.rs`, `text_token_source.rs` | bounded counters |
| TreeSink | `parse/text_tree_sink.rs` | |
| Lexer | `parse/lexer.rs`, `lexer/move_model.rs` | grapheme clusters are a parameter |
| Grammar, Prec | all of `parse/grammar.rs`, `parse/grammar/**` | recursion through a record unfolded enough times (proved enough) |
| TreeDiff | `ide-db/src/syntax_helpers/tree_diff.rs` | |
| Editor, UseGroup | `syntax/src/syntax_editor.rs`, `syntax_editor/edit_algo.rs`, `node_ext/{use_stmt,use_speck}.rs` deletions | `SyntaxMapping` (changes inside a replaced element have their own outcome); node identity in `rowan` is by green pointer and offset, here by path; `SyntaxFactory` is a parameter |
| UnusedImports | `ide-diagnostics/src/handlers/unused_import.rs:22-157`, `unused_import/use_items.rs`, `organize_imports.rs:46-60`, `reduced_scope_import.rs`, `lang/src/hir_db/use_items_ext.rs`, `nameres/use_speck_entries.rs:50-205` | messages and ranges of diagnostics; what a use path resolves to (an unresolved import counts as an import); local variables and items of the same name are not candidates in the specification |
| Selection | `ide/src/extend_selection.rs`, `aptos-language-server/src/handlers/request.rs:457-498` | rowan's `token_at_offset` and `covering_element` are modelled, not read; line/column conversion of the request; `char::is_alphanumeric` is a parameter |
| Signature | `ide-db/src/active_parameter.rs`, `ide/src/signature_help.rs:36-175`, `syntax/src/algo.rs:64-95` | name resolution (what is called, the declared fields) is a parameter; `kmerge_by` of itertools is modelled for two iterators; rendering of the parameter texts |
| Usages | `ide-db/src/search.rs:125-163, 281-455` | one file; name resolution (`refers`, the specs of a function) is a parameter; `memmem` is modelled as the leftmost non-overlapping occurrences; other files of a scope are searched the same way |
| Rename | `ide-db/src/rename.rs:42-222`, `syntax/src/ast/node_ext/struct_lit_field.rs`, `struct_pat_field.rs`, `path.rs:56-63` | one file; the references are those of Usages; aliases, library items and the choice of the item under the cursor (`ide/src/rename.rs:51-114`) are not modelled |
| Loc | `lang/src/loc.rs:17-130`, `rowan` 0.15 `SyntaxNodePtr::try_to_node`, `SyntaxNode::child_or_token_at_range` (from the published source, not in the repository) | file ids and the lookup of the tree by file id; node identity is the path |
| Walk, Pat | `lang/src/types/inference/ast_walker.rs:210-300,360-514,589-735,741-914,916-1160,1168-1456` (expressions outside specifications), `types/expectation.rs`, `types/patterns.rs:25-331`, `types/inference/combine_types.rs:303-336`, `types/inference.rs:206-231`, `types/has_type_params_ext.rs:45-57` | lambdas, specifications; name resolution (a path is the number of a binding, a call comes with its type parameters, parameter and result types, a pattern with the struct or variant its path is resolved to); resource expressions; missing parts of expressions and of patterns; struct patterns with a default field |
| Lower | `lang/src/types/ty_db.rs:22-177`, `types/ty_db/path.rs`, `types/ty_db/function.rs:10-54`, `types/inference.rs:221-251`, `ide-diagnostics/src/handlers/missing_type_arguments.rs`, `ide-diagnostics/src/handlers/ability_checking.rs:8-51` | what a path resolves to is given; hash maps from type parameters are lists in the order of the parameters; messages and ranges of diagnostics, acquires lists |
| Fix | `syntax/src/ast/syntax_factory.rs:80-92`, `syntax_factory/exprs.rs:12-39,59-62,82-96,180-184`, `ide-diagnostics/src/handlers/{can_be_replaced_with_compound_expr,can_be_replaced_with_index_expr,can_be_replaced_with_method_call,redundant_cast}.rs` (the fixes) | expressions are those of PrecSpec.v; whether two expressions are the same is given; the conditions on types under which the diagnostics appear, type arguments of methods and mappings between nodes are left out |
| Outline | `ide/src/file_structure.rs`, `ide-db/src/lib.rs:57-86`, `syntax/src/ast/node_ext.rs:108-127`, `aptos-language-server/src/handlers/request.rs:89-167`, `lsp/to_proto.rs:56-77` | ranges are offsets; the conversion to positions is in LspText; the address of the file in the flat list is left out |
| Inlay | `ide/src/inlay_hints.rs`, `inlay_hints/*.rs`, `lang/src/node_ext/callable.rs`, `aptos-language-server/src/handlers/request.rs:717-804`, `lsp/to_proto.rs:700-769` | types of variables as they are rendered, the functions called, whether a let takes a resource by index, and lower case are given; tooltips and text edits (never set) are left out; the version check of a resolve request and the conversion of its range to positions and back are left out (positions: LspText) |
| Count | `ide-diagnostics/src/handlers/call_params.rs`, `handlers/missing_fields.rs`, `syntax/src/ast/node_ext/{assert_macro_expr,struct_lit,struct_lit_field,struct_pat,struct_pat_field,tuple_struct_pat,fields_owner}.rs` | the number of parameters of what is called and the struct or variant a path leads to are given; the wording of messages is left out, what they mention is kept |
| Label | `lang/src/nameres/labels.rs`, `lang/src/nameres.rs:38-67`, `syntax/src/ast/node_ext/loop_label.rs`, `ide-completion/src/completions/reference/labels.rs`, `reference/paths.rs:326-329` | an element is its path of indices from the root; an entry is the path of the loop with the name; where completions are placed is left out |
| Requests | `main_loop.rs` requests, `handlers/dispatch.rs`, `global_state.rs` | answers of handlers are inputs |
| Workspace | `main_loop.rs` turns, `reload.rs`, `op_queue.rs`, `file_changes.rs`, `opened_files.rs`, `base-db` changes | content hash = content |
| FileSet, Deps | `project_folders.rs`; `load_from_fs.rs`, `dep_graph.rs`, dependency queries of `hir_db.rs` | paths compared only |
| Address | `nameres/address.rs`, named addresses | |
| ItemScope, NameRes | `item_scope.rs`; `is_visible.rs`, `resolve_scopes.rs`, `blocks.rs`, `path_resolution.rs`, `namespaces.rs` | entries of a scope are inputs |
| Unify, Ty, Infer | `types/unification.rs`, `ty.rs`, `fold.rs`, `substitution.rs`, `combine_types.rs`, `inference_result.rs` | reported errors; the walker over the syntax tree |

Not modelled: type inference of lambdas and of specifications, scope entries of use statements,
other diagnostics, assists, completion providers, rendering, hover, formatting, git and telemetry, the VS Code client.

## Per-property plan

| id | what is modelled | how it is proved |
|----|------------------|------------------|
| C01 | `TextEdit::apply`, `TextChange::apply` on byte lists with char-boundary panics | induction on the change list; result equals an inductively specified segment-wise replacement |
| C02 | `TextEditBuilder` push, stable sort, disjointness assert, coalesce | sortedness and permutation lemmas; refutation for duplicate deletions |
| C03 | `merge_by`, `check_disjoint`, `dedup_by` | effect of union = effect of the merged spec; refutation of symmetry |
| C04 | `apply_to_offset` | induction; relates to C01's segments |
| C05 | the gap-buffer loop of `normalize` on a mutable byte array with `copy_within`, slices and `set_len` | loop invariant; refinement to a two-line recursive spec |
| C06 | `normalize` + `map` | round trip by induction; refutation for mixed files |
| C07 | `apply_document_changes` with the stale index; crate `line-index` | simulation invariant "index agrees with text below line L" |
| C08 | `from_proto::offset`, `to_proto::lsp_position`, wide columns | per-line decoding lemmas |
| C09 | `all_edits_are_disjoint` | sorted adjacent check iff pairwise |
| C10 | `SemanticTokensBuilder::push` with u32 underflow as panic | decoder spec, induction |
| C11 | `diff_tokens` | list surgery |
| C12 | `Node::add`, `flatten` incl. fast path and `equal_range_by` | tree invariant by induction over insertions |
| C13 | `tree_diff`/`go`, `into_text_edit` and the builder of C02 | structural induction on trees |
| C14 | `find_token` and the tokenise loop on bytes/chars | progress lemma per token class; number literals as single tokens (LexerNumberProps); refutation for non-ASCII block comments |
| C15 | `TokenSet` as a 128-bit mask | bit reasoning in `N` |
| C16 | parser events and markers as an API machine; `event::process` | invariants by induction over API calls |
| C17 | `TextTreeSink`, trivia attachment | invariant: emitted text ++ pending = prefix of source |
| C18 | `Marker::rollback` | by induction over API calls in between |
| C19 | jointness bits, `at_composite*` | case analysis against an adjacency spec |
| C20 | `expr_bp` restricted to atoms and binary operators | Pratt parser vs. precedence grammar |
| C21 | `delimited_with_recovery`, `iterate_to_EOF` over an abstract element parser | decreasing measure, fuel adequacy |
| C22 | `UnificationTable` | invariant relating the table to an equivalence closure |
| C23 | `freeze`, `msl_scope`, snapshots | state restoration for arbitrary bodies |
| C24 | `combine_types` and helpers | soundness by induction on fuel |
| C25 | same, occurs check and panics | refutations with concrete types; partial: single-variable steps |
| C26 | `is_tys_compatible`, `coerce_types`, `autoborrow` | case analysis; refutation of the query path |
| C27 | `Substitution`, `TyTypeParameterFolder` | structural induction on types |
| C28 | `TyVarResolver`, `FullTyVarResolver`, result finalisation | induction under an acyclicity invariant |
| C29 | request queue, dispatch, workers, retry, cancel as a transition system | invariant over all schedules |
| C30 | `on_request` after shutdown | invariant over all schedules |
| C31 | `OpQueue` with main loop rules | invariant; refutation for the lost force flag |
| C32 | loader progress/config versions as a transition system | invariant |
| C33 | opened files, VFS, watcher deliveries as a transition system | invariant: refinement to "editor text wins" |
| C34 | `FileChanges::apply`, `Files` | refutation (deletion + new roots), partial without deletions |
| C35 | manifest graph walks | worklist invariant: visited = reachable |
| C36 | `partition_into_package_roots` | longest-prefix spec |
| C37 | `Address::equals_to`, `short` | string lemmas, numeric interpretation |
| C38 | `is_visible_in_context` over abstract facts | case analysis vs. declarative visibility relation |
| C39 | `item_scopes` walk | induction on trees |
| C40 | `CompletionRelevance::score` in u32 | arithmetic |
| C41 | scopes walked inside out, `get_entries_from_walking_scopes`, single result | induction on the walk from the inside out; the first scope with a visible entry decides; refutations for shadowing by an invisible entry |
| C42 | `get_entries_in_blocks` | induction on the statements before the position; only bindings that end before it count |
| C43 | package queries of `base-db` | the answers equal sets defined on the package graph; refutations for doubled entries |
| C44 | `parse_text`: lexer, grammar, event processing, tree sink together | composition of the lexer, event, grammar and tree-sink theorems; a panic is a separate outcome |
| C45 | every `assert!`, `unreachable!` and marker bomb of the parser | a judgement `safe` with one rule per combinator, proved for every grammar function by a tactic; `benign` names the token patterns that panic |
| C46 | `intersect_all_types` and `intersect_types` | case analysis on the two resolved types, in any unification state |
| C47 | error recovery of every grammar function, from any state and in any context | a judgement `keep` (does not move past the closing brace) with one rule per combinator, proved for every grammar function by a tactic; `tame` names the patterns on which it is false, each with a refutation |
| C48 | the whole grammar except specifications, on well-formed input | a grammar as an inductive relation over tokens with the tree calls of each production (ShapeSpec.v, independent of the parser); one lemma per production that the parser function does it, put together by induction over the derivation |
| C49 | `apply_edits`: order, conflict check, dependencies, mutation of the copied tree | a plan says what is wanted at each place; the state after some of the changes is the tree with their plan carried out, by induction on the path of each change; no conflict and no dependence by disjointness of ranges |
| C50 | the changes `delete_group_use_specks` asks for, through C49 | what is deleted with each item, in arithmetic of child indices; induction on the items for what is left; duplicates in the list of changes give the conflict |
| C51 | collection of use items, the hit of a path, unused items, the kind reported for a statement | a relation says which imports a statement makes and which one a path uses (innermost scope, specific before main); soundness by uniqueness of the candidate, completeness by mention of the name; counterexamples for enum variants |
| C52 | unused scopes of an item | from the hits of C51 |
| C53 | `extend_selection`, the loop of `handle_selection_range` | the covering element is the deepest one, so every element properly around the range is an ancestor; each branch gives a hull of siblings or an ancestor; the measure is the length left |
| C54 | `signature_target`, `active_param`, `active_field`, `push_param`, `call_for_offset` | the token before the cursor is the last one that is not trivia, so a comma starts at or before it exactly when it ends at or before the cursor; ancestors are nested, so the first list that is not being closed is the innermost |
| C55 | `find_iter`, `find_matches`, `find_nodes`, `usages`, `ident_pat_scope`, `intersect_ranges` | an occurrence that stands alone cannot overlap an earlier one, because identifiers consist of word characters only, so the non-overlapping search finds it; distinct offsets give distinct tokens and so distinct names |
| C56 | `rename_edit`, `ref_changes`, `lit_field`, `from_pat_field`, `classify` | the edits of one reference stay inside its name, the gap up to the value, or a binding that already has the new name; such parts of distinct names are disjoint, so the builder's coalescing and the union with the definition cannot fail |
| C57 | `loc_of`, `find_ptr`, `child_at_range`, `loc_contains` | children of a node tile its range, so the child containing a non-empty range is unique; the search goes down along it and stops at the first node of the stored kind and range |
| C58 | `infer`, `infer_block` and the other functions of the walk | a typing of the language that records how much of each type is known; a choice of a type for every variable (`means`) is built along the typing derivation, and combining two types that stand for the same type succeeds and keeps the tables in agreement with the choice |
| C59 | `collect_bindings` and the patterns of the walk | induction on the pattern, with a relation that says which part of the matched type each variable stands for |
| C60 | `abilities`, the checks of type arguments and fields | a relation `can` with one rule of Move per kind of type; induction on its derivation gives no false errors, case analysis the converse for types without type arguments |
| C61 | `try_lower_type`, `lower_path`, `lower_function`, `instantiate_path_with_ty_vars`, `missing_type_arguments` | a relation `reads` between written types and types; induction on it, with the substitution of distinct parameters done at once; counting by induction on the written type |
| C62 | `expr_from_text`, the fixes of the four handlers | the trees of PrecSpec.v that are in order are derivations of the grammar of ShapeSpec.v, hence read back as they are (C48); each fix gives a tree in order |
| C63 | `file_structure`, `structure_node`, `handle_document_symbol`, `flatten_document_symbol` | a recursive outline of the tree; the walk yields its flattening with indices (induction on trees), the loop rebuilds it from the end (induction on forests from the right) |
| C64 | `inlay_hints`, `hints` of the three kinds, `InlayHintLabelBuilder`, `inlay_hints_resolve`, `handle_inlay_hints`, `handle_inlay_hints_resolve` | nodes with their ancestors as an inductive relation, each kind of hint as an equivalence; every hint meets its node, so a skipped subtree has none in the range (induction on trees); lazy and computed labels agree in what is hashed (invariant of the builder) |
| C65 | `check_value_arguments`, `missing_fields_in_struct_lit`, `missing_fields_in_struct_pat`, `missing_fields_in_tuple_struct_pat` | how many arguments may be written as an inductive relation; missing fields as a sublist of the declaration with its exact members |
| C66 | `loop_ancestors`, `get_loop_labels_resolve_variants`, `resolve` of a label, `add_label_completions` | loops around an element by prefixes of paths, against the walk up the ancestors (sorted by depth); resolution as uniqueness; the innermost of two loops with one label is refuted |

More properties are appended to `properties.jsonl` as the model grows.
