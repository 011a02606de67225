{
 "claims": [
  {
   "property": "C01",
   "status": "proved",
   "theorems": [
    "c01_normalize_removes_exactly_crlf_crs",
    "c01_normalize_line_end_agnostic",
    "c01_unchanged_without_crlf",
    "c01_normalize_ref_agrees"
   ],
   "note": "Whole loop modelled; total and equal to the positional spec for every text."
  },
  {
   "property": "C02",
   "status": "proved",
   "theorems": [
    "c02_crlf_survives_iff_doubled_cr",
    "c02_normalize_idempotent_iff",
    "c02_internal_strings_use_lf_refuted"
   ],
   "note": "Exact characterisation; the unrestricted promise is refuted by CR CR LF."
  },
  {
   "property": "C03",
   "status": "proved",
   "theorems": [
    "c03_auto_is_crlf_iff_some_crlf",
    "c03_auto_matches_documentation_iff",
    "c03_explicit_settings_ignore_source",
    "c03_first_line_ending_rule_refuted"
   ],
   "note": "Implemented rule proved exactly; documented rule refuted on mixed files that start with LF."
  },
  {
   "property": "C04",
   "status": "proved",
   "theorems": [
    "c04_indent_width_range",
    "c04_line_width_range",
    "c04_editor_indent_width"
   ],
   "note": "Indent width 1..=24, line width 1..=320 for integer conversions and TOML; an out-of-range editor indent falls back to the default width 2."
  },
  {
   "property": "C05",
   "status": "proved",
   "theorems": [
    "c05_lookup_is_membership",
    "c05_merge_is_union",
    "c05_order_and_repetition_irrelevant",
    "c05_configured_names"
   ],
   "note": "skip and table name lookup by binary search on the sorted, deduplicated vector equals list membership; merging is union."
  },
  {
   "property": "C06",
   "status": "proved",
   "theorems": [
    "c06_toml_governed",
    "c06_no_toml_editor_then_default",
    "c06_editor_never_overrides_toml",
    "c06_no_toml_names",
    "c06_toml_rejected_iff_bad_pattern",
    "c06_editor_indentation_all_or_nothing",
    "c06_toml_file_selection",
    "c06_no_toml_file_selection"
   ],
   "note": "TOML, editor and default precedence, including the all-or-nothing editor indentation rule. Also the options that select files (exclude, default-exclude)."
  },
  {
   "property": "C07",
   "status": "proved",
   "theorems": [
    "c07_outputs_match_map",
    "c07_resolve_is_deepest_ancestor",
    "c07_resolve_or_fallback",
    "c07_deepest_characterised",
    "c07_matches_all_ancestors"
   ],
   "note": "Refinement of the sorted vector with binary search to a partial map, over every history of add/remove/clear; resolution is the deepest stored ancestor."
  },
  {
   "property": "C08",
   "status": "proved",
   "theorems": [
    "c08_nearest_air_toml_governs",
    "c08_nearest_total",
    "c08_order_and_repetition_irrelevant",
    "c08_nested_config_ignored_refuted",
    "c08_config_file_of_directory"
   ],
   "note": "Statement holds for files with no further configuration between given path and file (as stated); the stronger reading (every file governed by its own nearest air.toml) is refuted by c08_nested_config_ignored_refuted."
  },
  {
   "property": "C09",
   "status": "proved",
   "theorems": [
    "c09_discovery_fails_iff_broken",
    "c09_broken_config_stops_run"
   ],
   "note": "Discovery fails iff a governing configuration is broken; such a run performs no disk effect."
  },
  {
   "property": "C10",
   "status": "proved",
   "theorems": [
    "c10_selected_files",
    "c10_failures_reported",
    "c10_command_total",
    "c10_direct_equals_found_refuted",
    "c10_only_r_files_refuted"
   ],
   "note": "Selection proved for every schedule; hidden/git-ignored entries are an oracle. Two stronger readings refuted with witnesses (negated pattern inside an excluded directory; the built-in include class contains a comma). Failures are reported exactly for what the walk gets to and cannot list or inspect."
  },
  {
   "property": "C11",
   "status": "proved",
   "theorems": [
    "c11_schedule_independent",
    "c11_every_step_decreases",
    "c11_never_stuck",
    "c11_no_duplicates",
    "c11_overlapping_paths_duplicate_refuted"
   ],
   "note": "Scheduling over-approximated: any thread takes any pending entry. Overlapping command line paths do deliver a file twice (refuted witness)."
  },
  {
   "property": "C12",
   "status": "proved",
   "theorems": [
    "c12_stdin_like_direct_file"
   ],
   "note": "Formatter, parser and settings loader are oracles."
  },
  {
   "property": "C13",
   "status": "proved",
   "theorems": [
    "c13_check_never_writes_and_reports_exactly",
    "c13_check_status"
   ],
   "note": "Write and check runs compared over all schedules of both."
  },
  {
   "property": "C14",
   "status": "proved",
   "theorems": [
    "c14_write_result",
    "c14_write_status",
    "c14_errors_iff"
   ],
   "note": "Per-file write outcomes are an oracle, including failure after a partial write."
  },
  {
   "property": "C15",
   "status": "proved",
   "theorems": [
    "c15_restartable_between_files",
    "c15_crash_inside_write_refuted"
   ],
   "note": "Crash points between file writes, as stated. A crash inside one write loses the file (refuted witness): std::fs::write truncates first."
  },
  {
   "property": "C16",
   "status": "proved",
   "theorems": [
    "c16_position_round_trip",
    "c16_column_past_line_end_refuted",
    "c16_inside_surrogate_pair_refuted"
   ],
   "note": "Round trip at every character boundary in UTF-8, UTF-16 and UTF-32. Two refutations record what the conversion does off the boundaries: no clamping past a line end, and a byte offset inside a character for a position inside a surrogate pair."
  },
  {
   "property": "C17",
   "status": "proved",
   "theorems": [
    "c17_position_strictly_monotone",
    "c17_range_never_inverts"
   ],
   "note": ""
  },
  {
   "property": "C18",
   "status": "proved",
   "theorems": [
    "c18_batch_equals_one_by_one",
    "c18_batch_with_full_changes",
    "c18_unordered_range_refuted"
   ],
   "note": "Stated for ranges that do not end on a line above their start; the refutation shows the hypothesis is needed."
  },
  {
   "property": "C19",
   "status": "proved",
   "theorems": [
    "c19_full_change_discards_earlier",
    "c19_full_change_then_one_by_one"
   ],
   "note": ""
  },
  {
   "property": "C20",
   "status": "proved",
   "theorems": [
    "c20_server_in_step",
    "c20_lone_cr_refuted",
    "c20_joined_crlf_refuted"
   ],
   "note": "Under the stated restriction to edits that keep CR LF pairs and add no lone CR; both restrictions are shown necessary (a lone CR can stop the server)."
  },
  {
   "property": "C21",
   "status": "proved",
   "theorems": [
    "c21_version_of_last_change",
    "c21_versions_never_decrease",
    "c21_older_version_stops_server"
   ],
   "note": "Reopening a document sets any version (a new open is a new document)."
  },
  {
   "property": "C22",
   "status": "proved",
   "theorems": [
    "c22_edits_simultaneous",
    "c22_order_irrelevant",
    "c22_insertion_order_refuted",
    "c22_insertion_lost_refuted"
   ],
   "note": "Simultaneous application for edits with distinct starts, any order. Same-start edits: c22_insertion_order_refuted, c22_insertion_lost_refuted."
  },
  {
   "property": "C23",
   "status": "proved",
   "theorems": [
    "c23_diff_edit_applies"
   ],
   "note": "For every chunk list, not only those dissimilar returns."
  },
  {
   "property": "C24",
   "status": "proved",
   "theorems": [
    "c24_builder_correct",
    "c24_builder_accepts_iff",
    "c24_apply_ordered_edits",
    "c24_equal_deletions_refuted"
   ],
   "note": "The refutation records that equal deletions are accepted and applied twice."
  },
  {
   "property": "C25",
   "status": "proved",
   "theorems": [
    "c25_union_accepted_iff",
    "c25_union_effect",
    "c25_union_symmetric_refuted"
   ],
   "note": "Acceptance is characterised exactly; it is not symmetric in the two edits."
  },
  {
   "property": "C26",
   "status": "proved",
   "theorems": [
    "c26_lost_iff_inside",
    "c26_moved_with_text",
    "c26_same_character",
    "c26_untouched_offset"
   ],
   "note": ""
  },
  {
   "property": "C27",
   "status": "proved",
   "theorems": [
    "c27_client_obtains_formatted",
    "c27_client_obtains_printed",
    "c27_when_edits_are_sent",
    "c27_configured_crlf_refuted",
    "c27_line_ending_of_opening_refuted"
   ],
   "note": "The formatter is an oracle from LF text to LF text, the diff library an oracle meeting diff_contract. configured crlf and changed line endings refuted."
  },
  {
   "property": "C28",
   "status": "proved",
   "theorems": [
    "c28_directive_iff_spelled",
    "c28_generated_iff_spelled",
    "c28_directive_unique",
    "c28_directive_not_generated"
   ],
   "note": "Recognition proved equivalent to the comment grammar; which comments are consulted is part of C42/C43/C45."
  },
  {
   "property": "C29",
   "status": "proved",
   "theorems": [
    "c29_each_request_answered_in_order",
    "c29_panics",
    "c29_failure_contained",
    "c29_session_in_step",
    "c29_second_initialize_refuted"
   ],
   "note": "Every history of events. Panics (second initialize, unappliable change, inverted range) are characterised; refuted for a second initialize."
  },
  {
   "property": "C30",
   "status": "proved",
   "theorems": [
    "c30_sync_exactly_governed",
    "c30_when_sent",
    "c30_deletion_not_synced_refuted"
   ],
   "note": "Sync notification is exactly the governed documents; condition for sending after watched-file changes proved; 'a notification whenever settings change' is refuted (deletion of air.toml)."
  },
  {
   "property": "C31",
   "status": "proved",
   "theorems": [
    "c31_history_irrelevant",
    "c31_settings_of_file",
    "c31_settings_of_untitled",
    "c31_settings_of_others",
    "c31_config_above_folder_refuted",
    "c31_broken_at_opening_refuted",
    "c31_nested_config_refuted"
   ],
   "note": "The settings of every file after all histories in which changes of configuration files lie in the open folder itself and are reported, also while a configuration file is broken (then the defaults), and equality with a fresh server; refuted without that restriction (file above the folder, folder opened with a broken file); nearest file inside a folder is ignored (refuted)."
  },
  {
   "property": "C32",
   "status": "proved",
   "theorems": [
    "c32_request_layout",
    "c32_each_gets_its_own",
    "c32_bad_reply_changes_nothing",
    "c32_stops_at_bad_value",
    "c32_all_or_nothing_refuted"
   ],
   "note": "Every number of documents and every reply; a badly typed value in the middle leaves earlier documents updated (refutation of all-or-nothing)."
  },
  {
   "property": "C33",
   "status": "proved",
   "theorems": [
    "c33_confined",
    "c33_selection_formatted",
    "c33_panic",
    "c33_select_all_refuted",
    "c33_caret_at_end_refuted",
    "c33_configured_crlf_refuted",
    "c33_reversed_range_refuted"
   ],
   "note": "Edits replace the selected run of expressions in the deepest list holding both ends, nothing else; exact client text. A non-empty selection held by a list is formatted. Refuted: selecting a whole file ending in a newline formats nothing, configured CRLF leaves a stray CR, reversed range panics. The formatter is an oracle here."
  },
  {
   "property": "C34",
   "status": "proved",
   "theorems": [
    "c34_parse_lossless",
    "c34_tokens_and_trivia",
    "c34_comments_kept",
    "c34_structure",
    "c34_error_lossless",
    "c34_foreign_gap_refuted"
   ],
   "note": "For every tree tree-sitter's grammar allows (gram_root) whose leaves lie in the text as assumed (laid): parsing succeeds, the text of the tree is the source, tokens and comments are those of the source with their ranges, pieces are non-empty, and the tree's structure is given. The error path is covered too. c34_foreign_gap_refuted: a character between tokens that the walker does not know as trivia (no-break space after a newline) panics."
  },
  {
   "property": "C35",
   "status": "proved",
   "theorems": [
    "c35_trailing_on_line",
    "c35_comment_placement",
    "c35_lone_cr_refuted"
   ],
   "note": "Newline read as line feed; a lone carriage return is the refuted case."
  },
  {
   "property": "C36",
   "status": "proved",
   "theorems": [
    "c36_call_structure",
    "c36_slots",
    "c36_no_comma",
    "c36_arguments_in_order",
    "c36_named_argument"
   ],
   "note": "Stated on the shape of the tree, which c34_structure ties to the parser's result."
  },
  {
   "property": "C37",
   "status": "proved",
   "theorems": [
    "c37_tokens_kept",
    "c37_fixed_tokens_kept",
    "c37_source_tokens_kept"
   ],
   "note": "For every choice of layout the printed tokens are the source's, from tree-sitter's tree on, up to braces around non-empty stretches, restyled assignment operators and line endings in strings. Semicolons are trivia in the tree, so they are not tokens here."
  },
  {
   "property": "C38",
   "status": "proved",
   "theorems": [
    "c38_source_comments_kept",
    "c38_source_nodes",
    "c38_source_found",
    "c38_attached_once",
    "c38_dangling_in_empty",
    "c38_comments_kept",
    "c38_merged_comments_refuted",
    "c38_table_refuted",
    "c38_source_merged_refuted",
    "c38_source_table_refuted"
   ],
   "note": "From the source on: the walk and the placement rules attach every comment exactly once and let it dangle only in empty nodes; the line breaks around each comment and whether it lies inside its node are those of the source; every comment is printed exactly once and last on its line, except inside tables. Refuted: two own-line comments can merge into one line; a comment inside a table cell swallows the rest of the row."
  },
  {
   "property": "C39",
   "status": "proved",
   "theorems": [
    "c39_read_as_tidied",
    "c39_reads_as_source",
    "c39_same_marks",
    "c39_program_tokens",
    "c39_one_parse",
    "c39_grammatical_parses",
    "c39_same_program",
    "c39_text_read",
    "c39_parsed_grammatical",
    "c39_text_program",
    "c39_source_program",
    "c39_program_kept",
    "c39_unary_refuted",
    "c39_added_braces_refuted",
    "c39_mixed_chain_refuted",
    "c39_skipped_refuted"
   ],
   "note": "For every layout, reading the output as R's lexer does (line breaks end an expression unless inside parentheses or after a token that continues it) finds the ends of expressions exactly between the expressions of the source, and R's grammar (a precedence parser over those tokens) accepts the output and builds the program of the source, up to braces around bodies, restyled assignments and carriage returns in strings. From text to text (c39_text_program, c39_source_program, c39_program_kept): if R, reading the source character by character, makes of it the tree that tree-sitter made, it makes the same program of the rendered output; c39_program_kept derives from the source that skipped ranges read in the output as the nodes they are, provided code asked to be skipped does not move from parentheses into added braces unless it is bracketed itself. Comments at the operand of a unary operator, before a call's arguments, after :: or before else must lie in parentheses; otherwise the claim is refuted. Also refuted: chains mixing <- and =, and skipped ranges that move from parentheses into the braces air adds to a function body (R does not accept the output)."
  },
  {
   "property": "C40",
   "status": "proved",
   "theorems": [
    "c40_output_tidied",
    "c40_output_braced"
   ],
   "note": "The output is the tokens of a tidied program: braces only around one complete unbraced body, always for loops, alike for all branches of an if."
  },
  {
   "property": "C41",
   "status": "proved",
   "theorems": [
    "c41_equal_accepted",
    "c41_no_equal_left",
    "c41_preserve_keeps",
    "c41_same_structure",
    "c41_mixed_refuted",
    "c41_skipped_refuted",
    "c41_skipped_chain_refuted"
   ],
   "note": "Equals only where R's grammar accepts it; arrow leaves no equals; preserve changes no operator; R's grammar accepts the restyled program and builds the same structure. Refuted for chains mixing the operators (x <- y = 1) and for skipped operands, which the structure theorem excludes."
  },
  {
   "property": "C42",
   "status": "proved",
   "theorems": [
    "c42_source_skipped",
    "c42_source_copies",
    "c42_skipped_reproduced",
    "c42_others_formatted",
    "c42_curly_curly_refuted",
    "c42_table_cell_refuted"
   ],
   "note": "Every node that is laid out and is under a skip directive, or is a call of a function in the skip setting, appears in the output as the bytes of the source from its first to its last token, up to line endings; no other node is copied, but for the arguments of a call laid out as a table. Refuted where the formatter does not look at the directive: the inner braces of {{ x }} and cells of a table."
  },
  {
   "property": "C43",
   "status": "proved",
   "theorems": [
    "c43_left_alone_iff",
    "c43_source_left_alone",
    "c43_comments_only_refuted"
   ],
   "note": "Exact condition, with directives as spelled in C28; the file is then printed byte for byte up to line endings. Refuted for a file with comments only: its skip-file comment is ignored."
  },
  {
   "property": "C44",
   "status": "proved",
   "theorems": [
    "c44_source_top_level",
    "c44_source_braces",
    "c44_top_level",
    "c44_braces",
    "c44_after_comment_refuted"
   ],
   "note": "Top level and every pair of braces, for all layouts: the text is the expressions' blocks separated by exactly min(cap, blank lines of the source) blank lines, counted in the source text. Taken literally for comments between expressions the claim fails: blank lines after a comment are capped at one also at top level (refuted)."
  },
  {
   "property": "C45",
   "status": "proved",
   "theorems": [
    "c45_table_or_copy",
    "c45_fitting_table",
    "c45_breaking_cell_copies",
    "c45_commented_number_refuted"
   ],
   "note": "Every layout of a call asked to be a table shows the rows of the source in order with commas, decimal points and beginnings lined up, or copies the arguments; it is a table if all cells fit on one line, a copy if one has braces or a multi-line string. Cells: no comments inside, numbers in ASCII and without a comment before them (refuted there). That braces/strings in a skipped part do not count is stated via has_break."
  },
  {
   "property": "C46",
   "status": "proved",
   "theorems": [
    "c46_source_arguments",
    "c46_source_parameters",
    "c46_source_chains",
    "c46_source_assignments",
    "c46_arguments",
    "c46_parameters",
    "c46_chains",
    "c46_assignments",
    "c46_off",
    "c46_titled_block_refuted"
   ],
   "note": "For every file and every layout: after a line break of the source text before the first argument, parameter, right operand of a chain or right side of an assignment, every item begins a line. With the option off, files differing only in single line breaks (not before function bodies and branches, no directives) get the same document. The exception for test_that-like calls is refuted with a witness."
  },
  {
   "property": "C47",
   "status": "proved",
   "theorems": [
    "c47_in_order",
    "c47_reading_order",
    "c47_parentheses",
    "c47_same_precedence_refuted"
   ],
   "note": "Order, all-or-none breaking, precedence along the chain and parentheses for every tree and layout. That operators of different precedence are never merged is refuted with a witness; what holds is that precedence never rises along a chain."
  },
  {
   "property": "C48",
   "status": "proved",
   "theorems": [
    "c48_format_result_faithful"
   ],
   "note": "Parser and printer are oracles."
  },
  {
   "property": "C49",
   "status": "proved",
   "theorems": [
    "c49_formatting_options"
   ],
   "note": "After every history from a new server."
  },
  {
   "property": "C50",
   "status": "proved",
   "theorems": [
    "c50_formats",
    "c50_no_panic"
   ],
   "note": "From the source on: every conforming, well laid out source is read into typed nodes, no rule panics and an output exists, for every layout, option and table cell printer. Assumes the shapes of tree-sitter-r's nodes (conforms) and the spelling of its anonymous tokens."
  },
  {
   "property": "C51",
   "status": "proved",
   "theorems": [
    "c51_complete",
    "c51_tokens_kept",
    "c51_marked"
   ],
   "note": "Assumes the shapes of tree-sitter-r's nodes (conforms). The factory is modelled as a pass over the finished tree."
  },
  {
   "property": "C52",
   "status": "proved",
   "theorems": [
    "c52_output_read",
    "c52_table_comment_refuted",
    "c52_source_lexical",
    "c52_source_read"
   ],
   "note": "For every layout, indentation and options. c52_output_read: from any tree whose tokens, comments and copied sources are spelled as R's lexemes (lexical). c52_source_lexical, c52_source_read: lexical holds for every source that R's lexer splits into tree-sitter's tokens (read_by_r), so the output is read as the source's tokens, but for added braces and = / <-. Comments not inside tables (refuted there)."
  },
  {
   "property": "C53",
   "status": "proved",
   "theorems": [
    "c53_source_top_level",
    "c53_source_braces",
    "c53_source_paren_leading",
    "c53_source_paren_trailing",
    "c53_source_empty_braces",
    "c53_parens_shown",
    "c53_empty_braces_shown",
    "c53_sign_refuted"
   ],
   "note": "From the source text, for every layout. Top level and braces: the comments before a statement are printed on lines of their own directly above it and below the tokens of the statements before it, in order; those behind it follow its last line, each on the line it has in the source. Parentheses and empty braces: the comments are attached to the expression inside, or to the braces, and printed above it, behind it or between the braces. For gaps without a lone CR; the comments behind a statement if no comment stands between a sign and the operand that ends the statement (refuted there)."
  },
  {
   "property": "C54",
   "status": "proved",
   "theorems": [
    "c54_source_bodies",
    "c54_source_headers",
    "c54_source_conditions",
    "c54_source_before_else",
    "c54_source_after_else",
    "c54_bodies_shown",
    "c54_headers_shown",
    "c54_inner_headers_shown",
    "c54_starts_shown",
    "c54_all_headers_shown",
    "c54_conditions_shown",
    "c54_before_else_shown",
    "c54_after_else_shown"
   ],
   "note": "The places of comments in headers of for, while, repeat, function, if and else, from the source text to the node they are attached to and to the output. Condition: gaps without a lone CR; the tree conforms to tree-sitter-r's grammar; in the output, for nodes that are not inside a copied node, a table or {{ }}."
  },
  {
   "property": "C55",
   "status": "proved",
   "theorems": [
    "c55_source_beside",
    "c55_source_holes",
    "c55_source_behind_holes",
    "c55_source_names",
    "c55_source_clauses",
    "c55_source_empty",
    "c55_every_gap",
    "c55_comments_above",
    "c55_comments_behind",
    "c55_every_node",
    "c55_beside_shown",
    "c55_holes_shown",
    "c55_behind_holes_shown",
    "c55_names_shown",
    "c55_clauses_shown",
    "c55_empty_arguments_shown",
    "c55_empty_parameters_shown",
    "c55_order_refuted"
   ],
   "note": "The node each comment among operands, arguments and parameters is attached to, from the source text, and where it is in the output: above the text of the node with only comments between, behind it on its last line or below, or between the brackets. Every gap of the file is covered by C53, C54 or C55; every node has a place in the output or is inside a copied node, a table or {{ }}. Condition: gaps without a lone CR; the tree conforms to tree-sitter-r's grammar. c55_order_refuted: comments inside a named argument change places."
  },
  {
   "property": "C56",
   "status": "proved",
   "theorems": [
    "c56_walk_is_recursion",
    "c56_parse_is_recursion",
    "c56_lossless"
   ],
   "note": "The iterator and all loops of the parser as written, over a cursor with events, for every tree: they end and give the events and trivia of the recursion over the tree. tree-sitter's cursor moves are modelled on paths; loops have fuel and the result is the one with enough fuel."
  },
  {
   "property": "C57",
   "status": "proved",
   "theorems": [
    "c57_tokens_named",
    "c57_kind_of_text",
    "c57_every_text_known",
    "c57_every_rule_known",
    "c57_spelled"
   ],
   "note": "Assumes the names of tree-sitter-r's rules (NamesSpec.v) and that a node no rule names is called by its text."
  },
  {
   "property": "C58",
   "status": "proved",
   "theorems": [
    "c58_program_kept",
    "c58_idempotent_refuted",
    "c58_third_run_refuted",
    "c58_hole_refuted",
    "c58_default_refuted"
   ],
   "note": "Any number of runs keeps the program R reads (conditions of C39). That a second run changes nothing is refuted, in every layout: a comment after a right arrow moves in the second run, and into braces in the third; a blank line after a comment at an argument left out is lost in the second run; a comment after a parameter's name goes behind its default. Idempotence for files without comments is neither proved nor refuted."
  },
  {
   "property": "C59",
   "status": "partial",
   "theorems": [
    "c59_else_on_line_partial",
    "c59_comment_refuted",
    "c59_source_attached",
    "c59_source_else_on_line_partial"
   ],
   "note": "Proved from the source, for every layout and setting and comments anywhere but at the operand of a unary operator (c59_source_else_on_line_partial, with c59_source_attached: no comment is ever attached to an else clause) and for every tree (c59_else_on_line_partial). Missing: comments at such operands, and that an if statement over several lines is always braced; both need the printer's propagation of forced line breaks, the layouts of the model leave every group free."
  }
 ]
}