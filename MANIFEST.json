{
 "claims": [
  {
   "property": "C01",
   "status": "proved",
   "theorems": [
    "text_edit_apply_exact"
   ],
   "note": "edit_apply on in-order, fitting changes never panics and yields the unique result of the relation `edited`."
  },
  {
   "property": "C02",
   "status": "partial",
   "theorems": [
    "builder_preserves_effect",
    "builder_order_irrelevant",
    "builder_duplicate_deletion_refuted"
   ],
   "note": "Proved for pairwise disjoint additions; the clause about adding one deletion twice is refuted."
  },
  {
   "property": "C03",
   "status": "partial",
   "theorems": [
    "union_success",
    "union_applies_both",
    "union_success_iff",
    "union_symmetric_refuted"
   ],
   "note": "Effect of success, exact success condition and unchanged receiver on failure are proved; receiver independence is refuted."
  },
  {
   "property": "C04",
   "status": "proved",
   "theorems": [
    "apply_to_offset_cut",
    "apply_to_offset_none_iff",
    "apply_to_offset_same_char",
    "apply_to_offset_monotone"
   ],
   "note": ""
  },
  {
   "property": "C05",
   "status": "partial",
   "theorems": [
    "normalize_exact",
    "normalize_idempotent_partial",
    "normalize_idempotent_refuted"
   ],
   "note": "The result and the reported style are proved exactly; idempotence is refuted for CR CR LF and proved for texts without it."
  },
  {
   "property": "C06",
   "status": "partial",
   "theorems": [
    "line_endings_round_trip_iff",
    "line_endings_mixed_refuted"
   ],
   "note": "The round trip holds exactly for files that do not mix styles; mixed files are refuted."
  },
  {
   "property": "C07",
   "status": "proved",
   "theorems": [
    "document_sync_follows_protocol",
    "document_sync_sequential",
    "document_sync_last_whole",
    "document_sync_utf32_total",
    "document_sync_backwards_refuted"
   ],
   "note": "Holds for ranges whose start line is not after the end line; backwards ranges are refuted."
  },
  {
   "property": "C08",
   "status": "partial",
   "theorems": [
    "position_of_offset",
    "offset_of_position",
    "position_round_trip",
    "decoded_position_on_line",
    "decoded_position_in_document",
    "decoded_position_boundary",
    "clamp_to_line_end_refuted",
    "inside_char_panics_refuted"
   ],
   "note": "Round trip, bounds and boundaries are proved; the clamp goes past the newline and columns inside a character panic (refuted)."
  },
  {
   "property": "C09",
   "status": "proved",
   "theorems": [
    "completion_edits_disjoint_iff",
    "completion_edits_accept_sound"
   ],
   "note": ""
  },
  {
   "property": "C10",
   "status": "proved",
   "theorems": [
    "token_encoding_decodes",
    "semantic_tokens_decode",
    "expected_exists",
    "token_encoding_unsorted_refuted"
   ],
   "note": "Also for the whole highlight-to-token pipeline with multi-line highlights."
  },
  {
   "property": "C11",
   "status": "proved",
   "theorems": [
    "token_delta_reconstructs",
    "token_delta_empty_iff",
    "token_delta_at_most_one_edit"
   ],
   "note": ""
  },
  {
   "property": "C12",
   "status": "proved",
   "theorems": [
    "highlights_correct",
    "winner_unique",
    "highlight_tree_correct",
    "highlights_crossing_refuted"
   ],
   "note": "Insertion and flattening, and the whole traversal for every syntax tree and requested range; shows that nested-or-disjoint is needed."
  },
  {
   "property": "C15",
   "status": "proved",
   "theorems": [
    "token_set_membership",
    "token_set_extensional",
    "parser_visible_small",
    "token_set_big_kind_refuted"
   ],
   "note": "For all kinds below 128, which includes every kind the parser can see; the bound is shown to matter."
  },
  {
   "property": "C40",
   "status": "proved",
   "theorems": [
    "score_total",
    "in_scope_above_out_of_scope",
    "score_monotone",
    "sort_text_orders",
    "preselect_best"
   ],
   "note": "Also covers the sort text and preselection sent to the editor."
  },
  {
   "property": "C29",
   "status": "partial",
   "theorems": [
    "at_most_one_answer",
    "idle_all_answered_once",
    "can_always_drain",
    "answers_justified",
    "sync_cancel_unanswered_refuted",
    "reused_id_stale_answer_refuted"
   ],
   "note": "Proved for every history in which the client does not reuse ids and no main-thread handler is cancelled; both restrictions are shown necessary by refutations. At-most-once and the justification of every answer hold for all histories."
  },
  {
   "property": "C30",
   "status": "partial",
   "theorems": [
    "shutdown_refuses",
    "second_shutdown_refuted"
   ],
   "note": "Proved for every request other than a repeated shutdown, which is served again (refuted)."
  },
  {
   "property": "C37",
   "status": "partial",
   "theorems": [
    "equals_to_spec",
    "equals_to_equivalence",
    "equals_to_numeric",
    "equals_to_unassigned",
    "equals_to_completion",
    "resolve_spec",
    "short_hex_iff",
    "case_sensitive_refuted",
    "decimal_kept_apart_refuted",
    "leading_zero_decimal_refuted",
    "completion_not_transitive_refuted"
   ],
   "note": "Equivalence and characterisation for all addresses; numeric meaning for lower-case hexadecimal. Refuted for upper-case digits, for decimal spellings and for completion mode."
  },
  {
   "property": "C36",
   "status": "partial",
   "theorems": [
    "classify_longest_prefix",
    "partition_exactly_one",
    "classify_innermost_partial",
    "classify_innermost_refuted"
   ],
   "note": "Exactly-one partition and longest textual prefix for all inputs; innermost package only when no package directory name is the beginning of a sibling's name, otherwise refuted. The external vfs crate is re-modelled."
  },
  {
   "property": "C31",
   "status": "partial",
   "theorems": [
    "one_reload_at_a_time",
    "workers_are_running_reloads",
    "request_not_lost",
    "idle_requests_served",
    "recorded_request_starts",
    "op_completed_never_panics",
    "start_uses_last_request",
    "forced_reload_lost_refuted"
   ],
   "note": "At most one reload at a time and no request without a later start, in every history of the workspace model. The clause about forced reloads is false of the code: start_uses_last_request says exactly which flag is used, forced_reload_lost_refuted gives the history."
  },
  {
   "property": "C32",
   "status": "proved",
   "theorems": [
    "ready_means_loaded",
    "progress_never_ahead"
   ],
   "note": "For every interleaving of editor messages, worker results, loader steps and deliveries."
  },
  {
   "property": "C33",
   "status": "proved",
   "theorems": [
    "open_document_wins",
    "analysis_sees_files",
    "analysis_sees_open_document",
    "disk_ignored_while_open",
    "close_asks_disk",
    "disk_answer_applies"
   ],
   "note": "For every history that has not crashed. The analysis sees the document after the loader's progress report has ended, because the main loop holds back file changes until then."
  },
  {
   "property": "C34",
   "status": "partial",
   "theorems": [
    "batch_panics_iff",
    "structural_batch_partition",
    "structural_batch_reloads",
    "no_crash_without_deletion",
    "every_file_has_package",
    "analysis_sees_files",
    "deletion_crashes_refuted",
    "close_unsaved_crashes_refuted",
    "stale_package_refuted",
    "recreated_file_unassigned_refuted"
   ],
   "note": "Newest text always; a batch panics exactly when it contains a deletion, so the full statement is false; package assignment follows the layout current at the last structural batch, which can be stale."
  },
  {
   "property": "C16",
   "status": "proved",
   "theorems": [
    "replay_builds_tree",
    "replay_when_closed",
    "replay_balanced",
    "replay_one_root",
    "replay_keeps_tokens",
    "replay_consumes_position",
    "parse_one_root",
    "abandoned_wrapper_refuted"
   ],
   "note": "For every sequence of primitives respecting the marker discipline (ParserSpec.step: nodes closed in reverse order, a handle used once, precede/extend_to applied to a child of the innermost open node, no token consumed past the end): no panic, and the replay makes exactly the calls building the assembled trees. abandoned_wrapper_refuted shows why abandoning a precede marker immediately is excluded. That the grammar respects the discipline is proved for the whole grammar (disc_run, used by parse_one_root)."
  },
  {
   "property": "C18",
   "status": "proved",
   "theorems": [
    "rollback_leaves_no_trace",
    "restore_leaves_no_trace",
    "bump_past_end_refuted"
   ],
   "note": "Both Marker::abandon_with_rollback and CompletedMarker::abandon_with_rollback, for every disciplined sequence in between. bump_past_end_refuted: a token consumed past the end (outside the discipline) is not rolled back correctly."
  },
  {
   "property": "C19",
   "status": "proved",
   "theorems": [
    "composite_exact",
    "simple_exact",
    "eat_takes_spelling",
    "empty_trivia_joins_refuted"
   ],
   "note": "For all token lists whose tokens have text; eat consumes exactly the raw tokens of the spelling."
  },
  {
   "property": "C17",
   "status": "proved",
   "theorems": [
    "tree_contains_source",
    "marks_injective",
    "errors_in_order",
    "parse_keeps_source",
    "parse_tokens_lossless",
    "parse_text_lossless_partial",
    "eat_careful",
    "wildcard_careful",
    "careless_glue_refuted",
    "early_stop_refuted"
   ],
   "note": "The tree built for any event sequence that consumes all significant tokens has the source as its text, the required leaves in order, and, without trivia, exactly the nodes and tokens of the replayed calls; tokens glued by the grammar must be adjacent, which is proved of eat and wildcard_ident. rowan's builder is re-modelled. That the grammar consumes all tokens is proved (parse_tokens_lossless)."
  },
  {
   "property": "C39",
   "status": "proved",
   "theorems": [
    "node_scope_says",
    "item_scope_nearest",
    "decides_functional",
    "item_scope_elsewhere",
    "shrink_exact"
   ],
   "note": "For every tree; attributes are given as their names."
  },
  {
   "property": "C38",
   "status": "partial",
   "theorems": [
    "visible_exact",
    "test_only_hidden",
    "spec_items_hidden",
    "private_hidden",
    "package_hidden",
    "test_only_in_use_refuted"
   ],
   "note": "The last clause is false: use statements skip the scope check (test_only_in_use_refuted), and types in type position and builtins are visible everywhere. Exact characterisation of is_visible_in_context over ancestor chains; package ids, friend declarations and item scopes are inputs. Use statements skip the scope check (test_only_in_use_refuted)."
  },
  {
   "property": "C41",
   "status": "proved",
   "theorems": [
    "walk_exact",
    "walk_order",
    "enclosing_scopes_first",
    "special_case_subset",
    "special_case_nonempty",
    "call_prefers_functions",
    "resolve_sound",
    "invisible_hides_visible_refuted"
   ],
   "note": "The entries of each scope are inputs. Visibility is not considered when shadowing (invisible_hides_visible_refuted)."
  },
  {
   "property": "C42",
   "status": "proved",
   "theorems": [
    "block_bindings_exact",
    "block_names_unique",
    "let_not_visible_inside_itself"
   ],
   "note": "Bindings of a let statement are given as a list; for specifications the visibility rule for pre/post lets is the code's let_visible."
  },
  {
   "property": "C22",
   "status": "proved",
   "theorems": [
    "classes_exact",
    "value_exact",
    "unbound_exact",
    "table_panics_iff",
    "table_never_loops"
   ],
   "note": "For every sequence of operations from the empty table, generic in variables and values."
  },
  {
   "property": "C23",
   "status": "proved",
   "theorems": [
    "freeze_restores",
    "msl_scope_restores",
    "frozen_program_pure",
    "spec_program_pure",
    "freeze_adds_no_panic",
    "compatible_pure",
    "autoborrow_pure",
    "coerce_any_pure"
   ],
   "note": "Any program over the context (reading, unifying, combining, nested freezes and spec scopes)."
  },
  {
   "property": "C24",
   "status": "proved",
   "theorems": [
    "combine_ok_compat",
    "combine_keeps_solutions",
    "combine_ok_resolved",
    "combine_ok_fits",
    "combine_known_exact"
   ],
   "note": "Soundness for every context; for known types combining decides exactly the compatibility relation."
  },
  {
   "property": "C25",
   "status": "partial",
   "theorems": [
    "combine_total_actual_known",
    "combine_total_expected_known",
    "resolve_terminates",
    "known_keeps_acyclic",
    "bind_fresh_acyclic",
    "cyclic_solution_refuted",
    "second_value_refuted"
   ],
   "note": "False in general: the occurs check is shallow and Unknown rebinds; proved when one side is known."
  },
  {
   "property": "C26",
   "status": "partial",
   "theorems": [
    "combine_rejects_immutable",
    "combine_accepts_mutable",
    "coerce_rejects_immutable",
    "coerce_accepts_mutable",
    "autoborrow_direction",
    "query_rejects_mutable",
    "query_direction_refuted"
   ],
   "note": "Coercions respect the direction; the compatibility query compares the wrong way round."
  },
  {
   "property": "C27",
   "status": "proved",
   "theorems": [
    "visit_exact",
    "substitute_exact",
    "substitute_unmapped",
    "substitute_closed",
    "substitute_identity",
    "substitute_compose",
    "substitute_eliminates",
    "substitute_resolve_commute"
   ],
   "note": ""
  },
  {
   "property": "C28",
   "status": "partial",
   "theorems": [
    "resolved_exact",
    "resolved_again",
    "fully_resolved_exact",
    "finished_no_variables_partial",
    "finished_no_variables_refuted"
   ],
   "note": "First half proved; the finished result keeps an integer variable nested in another variable's value when no recorded type mentions it directly."
  },
  {
   "property": "C35",
   "status": "partial",
   "theorems": [
    "reach_terminates",
    "reach_exact",
    "reach_entries",
    "reach_unresolved",
    "reach_kind",
    "reach_kind_local_refuted",
    "deps_terminate",
    "deps_sound",
    "deps_closed",
    "deps_exact",
    "deps_exact_refuted",
    "load_terminates",
    "load_packages_exact",
    "load_deps_exact",
    "load_mixed_refuted",
    "workspace_graph_exact",
    "graph_exists_iff",
    "graph_exact",
    "graph_one_bad_refuted"
   ],
   "note": "Exact closure proved for workspaces whose manifests are all resolved and whose packages have distinct names; without that the full statement is false (witnesses). Move.toml text parsing and path joining are outside the model."
  },
  {
   "property": "C43",
   "status": "proved",
   "theorems": [
    "dep_packages_exact",
    "reverse_deps_exact",
    "reverse_deps_inverse",
    "reverse_deps_repeats_self",
    "missing_exact"
   ],
   "note": "Membership; the queried package itself is listed twice among its reverse dependencies, which is stated as a theorem."
  },
  {
   "property": "C14",
   "status": "partial",
   "theorems": [
    "tokenize_lossless_partial",
    "tokenize_ascii_partial",
    "tokenize_no_block_comment_partial",
    "tokenize_total_lossless",
    "tokenize_total_refuted",
    "comment_cut_refuted",
    "tokens_fit_sink_partial",
    "number_read",
    "number_token",
    "single_token_exact",
    "single_token_found"
   ],
   "note": "Losslessness and totality hold for texts whose block comments are ASCII; otherwise the length of a comment is counted in characters and used as a number of bytes: panic and wrong cut (witnesses). Grapheme segmentation is a parameter. A number literal (decimal, hexadecimal, with or without a type suffix) is read as one token whatever follows it; the single-token check used for names accepts exactly the texts that are one token."
  },
  {
   "property": "C13",
   "status": "proved",
   "theorems": [
    "tree_diff_exact",
    "tree_diff_same_empty",
    "unchanged_exact",
    "tree_diff_empty_element_refuted"
   ],
   "note": "For every old tree without empty descendants and every new tree, at any place in a file and for every iteration order of the replacement map. With an empty element in the old tree it fails (witness)."
  },
  {
   "property": "C21",
   "status": "proved",
   "theorems": [
    "list_terminates",
    "list_turn_progresses",
    "iterate_terminates",
    "parse_terminates",
    "no_stuck_iteration_refuted"
   ],
   "note": "For every element parser that consumes soundly and every recovery set; the debug-only stuck-iteration assertion can fire (refuted), the loop still ends."
  },
  {
   "property": "C44",
   "status": "partial",
   "theorems": [
    "parse_terminates",
    "parse_one_root",
    "parse_tokens_lossless",
    "parse_text_lossless_partial"
   ],
   "note": "The whole grammar is modelled, including backtracking and recovery. Proved for every token sequence; a panic is an allowed outcome (C45), and for texts the block comments must be tokenized correctly (C14)."
  },
  {
   "property": "C45",
   "status": "partial",
   "theorems": [
    "parse_assertions_hold",
    "benign_tokens_lossless",
    "benign_text_lossless",
    "parse_markers_fine",
    "parse_never_panics_refuted",
    "no_stuck_iteration_refuted",
    "wildcard_counter_refuted"
   ],
   "note": "False of the code: four source files that panic in release builds, two more in debug builds, and a counter overflow. Proved: in a release build the parser does not panic on any file without the five token patterns of benign, whatever else is wrong with it."
  },
  {
   "property": "C46",
   "status": "proved",
   "theorems": [
    "intersect_never",
    "intersect_mutability",
    "intersect_first_or_unknown"
   ],
   "note": "For every inference state."
  },
  {
   "property": "C20",
   "status": "partial",
   "theorems": [
    "operators_nest_partial",
    "expression_tree_partial",
    "tree_unique",
    "tree_exists",
    "range_minus_refuted",
    "less_greater_refuted"
   ],
   "note": "For every sequence of operands (literals, names, parentheses, prefixes, fields, indexing, nested without bound) and binary operators, in any context; `as` and `is` and other atoms (calls, struct literals, blocks) as operands are missing. Two exceptions are refuted: a range followed by a minus, and a `<` that starts what looks like type arguments."
  },
  {
   "property": "C47",
   "status": "partial",
   "theorems": [
    "block_contained",
    "item_list_contained",
    "stmt_contained",
    "item_contained",
    "expr_contained",
    "block_contained_refuted",
    "item_list_contained_refuted"
   ],
   "note": "False of the code: six balanced files where recovery swallows a closing brace (a lone label, a stray character, post, a trigger in a quantifier, an attribute at the end of an enum, spec f<). Proved for every file without these patterns, in every context."
  },
  {
   "property": "C48",
   "status": "proved",
   "theorems": [
    "well_formed_file_parses",
    "well_formed_file_tree",
    "grammar_unambiguous",
    "well_formed_text_tree_partial",
    "valid_accepted_refuted",
    "misread_refuted"
   ],
   "note": "For every token list of the grammar in ShapeSpec.v (203 productions; specifications are not in it) the parser reports no error, fails no assertion, and builds exactly the tree of the grammar; hence the grammar is unambiguous. From the text on: if block comments are ASCII and there is no strange character. Side conditions of the productions name what the parser does differently; valid_accepted_refuted and misread_refuted show valid code it rejects or misreads (x is A || y)."
  },
  {
   "property": "C49",
   "status": "partial",
   "theorems": [
    "edits_applied",
    "deleted_twice_refuted",
    "same_place_refuted",
    "insert_after_deleted_refuted",
    "insert_before_deleted_refuted",
    "nested_ancestor_refuted"
   ],
   "note": "Proved for every batch of insertions, replacements and deletions of elements (ReplaceAll of a range excluded) that are pairwise apart, in trees in which a node is determined by kind and range. Refuted without: a deletion asked for twice drops the whole batch, insertions at one place come out reversed, insertions next to a deleted element panic, of three nested replacements the innermost is attached to the wrong one."
  },
  {
   "property": "C50",
   "status": "partial",
   "theorems": [
    "unused_items_removed",
    "unused_end_pair_refuted",
    "last_item_rebuilt"
   ],
   "note": "Proved for every one-line group and every set of unused items that leaves two or more, unless it contains both of the first two or both of the last two items; in exactly these cases the separator is deleted twice and the whole edit is dropped, also proved for all groups. When one item is left the use item is rebuilt by the factory, which is not modelled."
  },
  {
   "property": "C51",
   "status": "partial",
   "theorems": [
    "statement_imports",
    "used_not_reported_partial",
    "used_not_removed_partial",
    "unused_reported",
    "enum_import_refuted",
    "enum_import_always_refuted",
    "nested_path_refuted",
    "unreadable_statement_refuted",
    "unreadable_statement_always_refuted"
   ],
   "note": "Proved for uses of the forms x (imported item) and m::x (imported module), with shadowing, scopes and specifications; every unmentioned import is reported if all statements can be read. Refuted: an enum used as E::V only, and a module used as m::E::V only, are reported and removed; one unreadable use statement hides all unused imports of its scope. Local variables that shadow an import count as uses."
  },
  {
   "property": "C52",
   "status": "partial",
   "theorems": [
    "suggested_test_only_partial",
    "tests_only_suggested",
    "enum_test_only_refuted"
   ],
   "note": "Proved for the same two forms of uses as C51; refuted for enums whose variants main code uses."
  },
  {
   "property": "C53",
   "status": "partial",
   "theorems": [
    "expand_selection_grows",
    "expand_cursor_partial",
    "selection_ranges_nested_partial",
    "list_item_with_comma",
    "last_item_with_comma",
    "comment_run_selected",
    "word_selected",
    "expand_cursor_refuted"
   ],
   "note": "Non-empty selections: proved for all trees whose tokens are not empty. Cursors: proved for every position except behind whitespace that is followed by an empty element with only whitespace touching the cursor; there nothing is selected, shown for the parse of `address` and a line break, with the cursor at the end of the file. Shrinking and multiple cursors are not modelled."
  },
  {
   "property": "C54",
   "status": "partial",
   "theorems": [
    "signature_argument",
    "signature_inside",
    "signature_innermost",
    "struct_field_named",
    "struct_field_next",
    "struct_field_shorthand_refuted",
    "label_parameters",
    "call_argument_partial",
    "call_innermost",
    "looked_up_partial",
    "call_argument_refuted",
    "looked_up_refuted",
    "call_inside_refuted"
   ],
   "note": "Signature help of calls and type arguments: proved for all trees whose tokens are not empty. Struct literals: refuted for the cursor on a shorthand field. Completion: the innermost call is found, but the argument is wrong just before a comma, the cursor behind the name of the function counts as inside its own arguments, and in a chained method call the parameters of the first call are used (all refuted with a parsed file; partial theorems give the remaining cases). What is called is not modelled."
  },
  {
   "property": "C55",
   "status": "partial",
   "theorems": [
    "usages_exact",
    "scope_lambda",
    "scope_match_arm",
    "scope_let",
    "scope_param_partial",
    "scope_param_specs",
    "scope_for_partial",
    "scope_other",
    "scope_for_refuted",
    "scope_param_refuted",
    "narrowing_sound",
    "narrowing_complete_partial",
    "narrowing_complete_refuted"
   ],
   "note": "The search itself: proved for all trees in which a name is one token and tokens spelled like the name do not touch other letters or digits (which the lexer guarantees for ASCII identifiers). Scopes of lambda parameters, match arms and let bindings: proved. The index of a for loop is not looked for in the spec block of the loop, and the parameter of a lemma not in its proof (both refuted with a parsed file); the intersection of two scopes loses ranges when the second has several. Name resolution is a parameter."
  },
  {
   "property": "C56",
   "status": "partial",
   "theorems": [
    "rename_applies",
    "literal_field_renamed",
    "literal_shorthand_renamed",
    "pattern_field_renamed",
    "pattern_shorthand_renamed",
    "new_name_one_token",
    "identifier_accepted",
    "pattern_binding_refuted",
    "new_name_refuted"
   ],
   "note": "Proved for all trees in which names are one token, path segments are in paths and fields have their usual shape: the edits never overlap, and each entry of a struct literal or pattern keeps its meaning. Refuted: a variable bound by `S { x }` is renamed to `S { y }`, which is the pattern of another field; and `_` is accepted as the name of a function, which then has no name (both with parsed files). That the new name does not capture another is not checked by the code and not stated here. Which names refer to the item is C55; aliases and library items are not modelled."
  },
  {
   "property": "C57",
   "status": "partial",
   "theorems": [
    "loc_found_sound",
    "loc_outermost",
    "loc_roundtrip",
    "loc_unique",
    "loc_contains_exact",
    "loc_empty_refuted",
    "loc_echo_refuted"
   ],
   "note": "Proved for all trees without empty nodes and without a node that is the only content of a node of its own kind; what is found has always the stored kind and range and is the outermost such node. Refuted without these conditions, both on trees the parser builds: the empty CONDITION of `if }` is not found again, and of an ERROR inside an ERROR the outer one is found."
  },
  {
   "property": "C58",
   "status": "partial",
   "theorems": [
    "well_typed_no_errors_partial",
    "well_typed_inferred_partial",
    "literal_or_abort_refuted",
    "index_without_type_refuted",
    "ill_typed_error_refuted",
    "differing_arms_error_refuted",
    "recursive_call_error_refuted",
    "annotation_type_refuted"
   ],
   "note": "Proved for all function bodies with a type by the rules of WalkTyping, which follow what is known of a type at each point. Refuted beyond them: `let a = if (c) 1 else abort 0` and indexing with a variable declared without a type get a false error. The converse is refuted: after `let a = 1 & 1` the variable can be used as u8 and as u16. Match and patterns are included; for match the arms must have one type that is not a reference, or not return (a match whose arms differ in type gets no error: differing_arms_error_refuted). Generic functions and structs are included: types for the type parameters that have their abilities must exist, and of the result only the parts outside of type parameters count as known. Refuted: in a generic function a call of itself with its own type parameter as the type argument and a value of another type gets no error (recursive_call_error_refuted), and a mutable reference annotated as an immutable one keeps its own type (annotation_type_refuted). Lambdas and specifications are not modelled; name resolution and the types of called functions are given."
  },
  {
   "property": "C59",
   "status": "partial",
   "theorems": [
    "pattern_binds_partial",
    "tuple_rest_no_error_refuted",
    "rest_then_more_refuted",
    "tuple_arms_refuted"
   ],
   "note": "Proved for all patterns that fit a declared type, with the exact types of the variables. Refuted: a tuple pattern with `..` gets a false error though its variables get the right types; `..` followed by more patterns than there are fields, or for an unknown type, computes an index below zero; in match, a tuple pattern in a later arm panics if an earlier arm determined a type variable of the matched value. Generic structs are included."
  },
  {
   "property": "C60",
   "status": "partial",
   "theorems": [
    "type_argument_errors_sound",
    "type_argument_errors_partial",
    "inferred_argument_errors_sound",
    "field_errors_sound",
    "field_errors_partial",
    "type_argument_refuted",
    "field_store_refuted"
   ],
   "note": "No false ability errors: proved for all types and declarations, for written and inferred type arguments and for fields. Every missing ability is reported for types without type arguments, except store of fields. Refuted beyond that: a generic struct whose argument lacks the ability, a vector of a key struct demanded to have key, and a field without store in a struct that declares store are not reported."
  },
  {
   "property": "C61",
   "status": "partial",
   "theorems": [
    "type_read_as_named",
    "function_type_read",
    "explicit_type_arguments",
    "inferred_type_arguments",
    "own_type_argument_refuted",
    "count_errors_exact",
    "type_without_errors_read",
    "call_count_errors_exact",
    "enum_arguments_refuted",
    "builtin_arguments_refuted"
   ],
   "note": "Proved for all types as described, and for calls with arguments that do not mention type parameters of the called function. Refuted: in a function that calls itself, an explicit type argument that mentions its own type parameter is replaced by a variable. The count of type arguments is exact for structs and vectors; refuted for enums and for the other built-in types, which get no diagnostic. Resolution of paths is given."
  },
  {
   "property": "C62",
   "status": "partial",
   "theorems": [
    "factory_builds",
    "factory_builds_spelled",
    "compound_fix_meaning",
    "compound_text",
    "compound_fix_ordered",
    "compound_fix_builds",
    "compound_warning_has_fix_refuted",
    "index_fix_ordered_partial",
    "index_base_primary",
    "index_fix_builds_partial",
    "index_fix_builds_refuted",
    "index_fix_meaning",
    "receiver_meaning",
    "receiver_primary",
    "receiver_ordered",
    "method_fix_builds",
    "cast_fix_operand",
    "cast_fix_in_parens",
    "cast_fix_keeps_meaning_refuted"
   ],
   "note": "The factory gives the node of every expression of the grammar. Proved for assignments and method calls, for indices if what is borrowed is a name, a field, an index or in parentheses, for casts in parentheses. Refuted: the index fix of *vector::borrow(&*x, i) panics; taking out the cast of a + b as u64 * c changes which operands belong together; b = b && c gets a warning without a fix. Type arguments of the method call and mappings between old and new nodes are left out."
  },
  {
   "property": "C63",
   "status": "proved",
   "theorems": [
    "symbol_meaning",
    "file_structure_flat",
    "outline_exact",
    "outline_nests",
    "flat_symbols_all",
    "flat_symbols_containers",
    "named_exact",
    "shown_exact",
    "shown_binding",
    "shown_binding_else"
   ],
   "note": "All trees in which a NAME begins with a token; the parser makes NAME nodes only around an identifier (GrammarModel.name), but that no tree has another one is not derived from the grammar model here."
  },
  {
   "property": "C64",
   "status": "partial",
   "theorems": [
    "limited_exact",
    "limited_members",
    "hints_exact",
    "hints_inside",
    "visible_hints",
    "label_says",
    "label_links",
    "prepend_says",
    "append_says",
    "param_hints_exact",
    "type_hints_exact",
    "range_hints_exact",
    "resolve_completes",
    "hint_kinds",
    "known_meaning",
    "node_of_meaning",
    "token_of_meaning",
    "arg_exprs_meaning",
    "resolve_without_location_refuted",
    "builtin_names_refuted",
    "letters_refuted"
   ],
   "note": "Proved as described for ranges that begin in the file. Resolving: proved if every linked item has a location, refuted otherwise; that the hint found is made at the same node is shown through its range and text only. Names of parameters: refuted for functions of the user named as some builtins are, and when the letters of the name are inside another word of the argument."
  },
  {
   "property": "C65",
   "status": "partial",
   "theorems": [
    "arguments_exact",
    "arguments_silent",
    "arguments_panic",
    "arguments_located",
    "literal_fields_exact",
    "pattern_fields_exact",
    "rest_pattern_silent",
    "tuple_pattern_exact",
    "tuple_pattern_found",
    "fields_read",
    "literal_name",
    "pattern_name",
    "name_says",
    "tuple_fields_counted",
    "pattern_kinds",
    "every_extra_marked_refuted",
    "tuple_pattern_too_many_refuted"
   ],
   "note": "Proved as described. Refuted: only the first of several arguments too many is marked, although the code loops over them; a pattern with parentheses that has too many parts gets no error from this check. A panic needs a method without a receiver or an assertion with another name; that resolution and parser exclude both is not derived."
  },
  {
   "property": "C66",
   "status": "partial",
   "theorems": [
    "loops_exact",
    "loops_innermost_first",
    "break_offered",
    "entries_exact",
    "completions_exact",
    "resolve_label_exact",
    "resolve_label_unique",
    "innermost_label_refuted"
   ],
   "note": "Proved as described, for all trees in which every declaration of a label has a name; that the parser makes no others is not derived from the grammar model here. Refuted: that the innermost of several loops with the same label is meant; the label is left unresolved."
  }
 ]
}