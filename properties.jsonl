{"id": "C01", "title": "Line ending normalization removes exactly the CRs of CRLF pairs", "statement": "Normalizing a document's line endings deletes every carriage return that is directly followed by a line feed in the input and nothing else: all other characters survive in their order, a text without CRLF is returned unchanged, and two texts that differ only by CRLF versus LF at line ends normalize to the same text. The rewriting is done in place by a moving-gap loop, and the loop computes exactly this function for every input.", "quantifier": "for every text (any sequence of characters, any number and position of CR and LF)", "why_tests_cant": "The loop shifts bytes within one buffer; its correctness is an invariant over the number of CRLF pairs already removed, and inputs with adjacent or overlapping CRs are unbounded in number.", "anchors": ["crates/line_ending/src/lib.rs: normalize, normalize_ref, FINDER"]}
{"id": "C02", "title": "After normalization no CRLF remains when CRs are never doubled", "statement": "A document whose text contains no CR directly before a CRLF has no CRLF left after it is opened in the editor or read for a skipped file, so later code may split on LF alone; normalizing twice is then the same as normalizing once. For a text with a doubled CR this fails, and the failure is characterised: a CRLF remains exactly when the input has CR CR LF.", "quantifier": "for every text", "why_tests_cant": "The claim 'all internal strings use LF' is a claim about every text; the failing texts are rare byte patterns.", "anchors": ["crates/line_ending/src/lib.rs: normalize", "crates/lsp/src/documents.rs: Document::new", "crates/air_r_formatter/src/r/auxiliary/root.rs: fmt_suppressed"]}
{"id": "C03", "title": "Line ending choice of the auto setting", "statement": "With line-ending auto, the line ending used to print a file is CRLF if and only if the source contains at least one CRLF, and LF otherwise (in particular for texts without any line ending); lf and crlf settings ignore the source. The documentation promises the first detected line ending for mixed files; a mixed file that starts with LF but contains a CRLF later gets CRLF.", "quantifier": "for every source text and every line-ending setting", "why_tests_cant": "Mixed-ending files are unbounded in shape; the documented and implemented choices agree on all uniform files and so on almost all test files.", "anchors": ["crates/line_ending/src/lib.rs: infer", "crates/workspace/src/settings/line_ending.rs: LineEnding::finalize", "docs/configuration.qmd: line-ending"]}
{"id": "C04", "title": "Bounded numeric settings accept exactly the documented range", "statement": "An indent width is accepted if and only if it is between 1 and 24 and a line width if and only if it is between 1 and 320; an accepted value is stored unchanged, with no wrap-around for numbers that do not fit the machine integer; a width coming from the editor that is out of range is replaced by the default instead of being stored.", "quantifier": "for every integer given as setting, from code, from the configuration file or from the editor", "why_tests_cant": "Range checks at machine-integer boundaries need all integers, not samples.", "anchors": ["crates/settings/src/indent_width.rs: IndentWidth::try_from", "crates/settings/src/line_width.rs: LineWidth::try_from"]}
{"id": "C05", "title": "Skip and table name lookup is set membership", "statement": "A function name is treated as skipped (or as a table call) by configuration if and only if it is one of the configured names, whatever the order or repetition in the configuration file; combining the user's table list with the built-in one recognises exactly the union, and switching the built-in list off leaves exactly the user's names.", "quantifier": "for every list of names and every queried name", "why_tests_cant": "Lookup is a binary search over a sorted vector: correctness is an induction over all vectors.", "anchors": ["crates/settings/src/sorted_strings.rs: SortedStrings::new, contains", "crates/settings/src/skip.rs: Skip", "crates/settings/src/table.rs: Table::merge", "crates/workspace/src/toml_options.rs: FormatTomlOptions::into_settings"]}
{"id": "C06", "title": "Configuration precedence", "statement": "Each effective formatter option is the value in the governing air.toml if present there and otherwise the documented default; for a file governed by an air.toml, editor-provided indentation and width never change the result; for a file with no air.toml, an editor-provided value overrides the default exactly for the options it provides and all other options stay at their default.", "quantifier": "for every air.toml content, every editor settings record and every file", "why_tests_cant": "All combinations of present/absent options on both sides form a product space; the claim is about each option independently of all the others.", "anchors": ["crates/workspace/src/toml_options.rs: into_settings", "crates/workspace/src/settings.rs: FormatSettings::to_format_options", "crates/lsp/src/workspaces.rs: WorkspaceDocumentSettings::to_format_options / settings_for_url", "crates/lsp/src/settings.rs: DocumentSettings::merge"]}
{"id": "C07", "title": "Path-keyed settings store behaves as a map with longest-prefix lookup", "statement": "After any sequence of additions, removals and clears, the store holds for each directory exactly the last value added and not since removed; an addition reports the value it replaced and a removal the value it removed; resolving a path returns the value of the deepest stored directory that is the path itself or one of its ancestors, and the fallback if there is none.", "quantifier": "for every history of operations and every queried path", "why_tests_cant": "The store is a sorted vector searched by binary search and scanned in reverse; histories are unbounded and the component-wise prefix order must agree with the sort order.", "anchors": ["crates/workspace/src/resolve.rs: PathResolver::add, remove, clear, resolve, resolve_or_fallback"]}
{"id": "C08", "title": "A file is governed by the nearest air.toml", "statement": "If settings are discovered from a set of paths and a file lies below (or is) one of them with no further air.toml between that path and the file, then the settings resolved for the file are those of the nearest enclosing directory containing an air.toml or .air.toml (air.toml preferred), or the fallback if no enclosing directory has one. The result does not depend on the order of the paths or on repetitions.", "quantifier": "for every directory tree, every list of start paths and every file", "why_tests_cant": "Discovery shares a visited set between paths and stops early; whether an early stop can hide a configuration depends on all earlier paths.", "anchors": ["crates/workspace/src/discovery.rs: discover_settings", "crates/workspace/src/toml.rs: find_air_toml_in_directory", "crates/workspace/src/resolve.rs: resolve_or_fallback"]}
{"id": "C09", "title": "A broken air.toml stops the whole run before any file is touched", "statement": "If the governing air.toml of any of the given paths cannot be read or parsed then settings discovery fails and no file is formatted or written; conversely discovery fails only if such an air.toml exists.", "quantifier": "for every directory tree, every list of paths and every set of unparsable configuration files", "why_tests_cant": "Failure must be decided over all paths before the first write; the order of paths and shared ancestors is arbitrary.", "anchors": ["crates/workspace/src/discovery.rs: discover_settings", "crates/air/src/commands/format/paths.rs: format"]}
{"id": "C10", "title": "Which files a CLI run formats", "statement": "A run over a set of paths selects exactly: each directly given file that is not excluded (by itself or through an excluded ancestor) and is included, and each file found below a given directory through directories that are all neither excluded, hidden nor git-ignored, itself not excluded and included. Nothing inside an excluded directory is ever selected. With the force flag, exclusion and inclusion are ignored.", "quantifier": "for every directory tree, exclusion/inclusion predicates and list of paths", "why_tests_cant": "Directory trees are unbounded and the pruning interacts with per-directory settings.", "anchors": ["crates/workspace/src/discovery.rs: discover_r_file_paths, FormatVisitor::visit_format", "crates/air/src/commands/format.rs"]}
{"id": "C11", "title": "Parallel discovery result does not depend on scheduling", "statement": "The multiset of selected files and of reported errors is the same for every distribution of the walk over worker threads and every order in which threads deliver their results; no entry is lost or duplicated.", "quantifier": "for every assignment of directory entries to threads and every interleaving of the deliveries", "why_tests_cant": "Thread schedules cannot be enumerated by tests.", "anchors": ["crates/workspace/src/discovery.rs: discover_r_file_paths, FilesVisitor, Drop for FilesVisitor"]}
{"id": "C12", "title": "Stdin formatting decides like a directly supplied file", "statement": "Piping a file's content with its path formats the content if and only if passing that (regular file) path directly on the command line would select the file, and otherwise echoes the content unchanged.", "quantifier": "for every path, settings and content", "why_tests_cant": "Two separate code paths have to agree on every combination of exclusion patterns.", "anchors": ["crates/air/src/commands/format/stdin.rs: is_stdin_formattable, format", "crates/workspace/src/discovery.rs: visit_format"]}
{"id": "C13", "title": "Check mode never writes and reports exactly the files that write mode would change", "statement": "In check mode no file changes; the exit status is error if some file or discovery step failed, otherwise failure if some file would be rewritten, otherwise success; the list of reported files is exactly the set that write mode would rewrite from the same state, in sorted order.", "quantifier": "for every file system state, set of paths and formatter behaviour per file", "why_tests_cant": "The claim relates two whole runs over arbitrary trees.", "anchors": ["crates/air/src/commands/format/paths.rs: format_paths_check, format_paths_write, format_path", "crates/air/src/status.rs: ExitStatus"]}
{"id": "C14", "title": "Write mode touches only files whose formatting differs and isolates failures", "statement": "After a write run each selected file that parses holds its formatted text, each other file is untouched, files whose text is already formatted are not rewritten, and a failure on one file (read, parse or write) does not prevent the others from being processed; the exit status is success if and only if no error occurred.", "quantifier": "for every file system state, every set of selected files and every per-file failure pattern", "why_tests_cant": "The set of failing files is an arbitrary subset.", "anchors": ["crates/air/src/commands/format/paths.rs: format_paths_write, write_path", "crates/workspace/src/format.rs: format_source"]}
{"id": "C15", "title": "Write runs are restartable", "statement": "If a write run is interrupted after any prefix of its file writes, running it again leaves the tree in the same final state as one uninterrupted run, provided formatting a formatted file reproduces it.", "quantifier": "for every file system state and every crash point between file writes", "why_tests_cant": "Crash points are part of the quantifier.", "anchors": ["crates/air/src/commands/format/paths.rs: format_paths_write"]}
{"id": "C16", "title": "Offset and editor position conversion round-trips", "statement": "For every character boundary of a document, converting the byte offset to a line/character position in the negotiated encoding (UTF-8, UTF-16 or UTF-32) and back yields the same offset, and the position is the one defined by the protocol: the number of line feeds before the offset and the number of code units since the last line feed.", "quantifier": "for every text and every character boundary, for each of the three encodings", "why_tests_cant": "Multi-byte and surrogate-pair characters at any column of any line.", "anchors": ["crates/aether_lsp_utils/src/proto/to_proto.rs: position_from_offset", "crates/aether_lsp_utils/src/proto/from_proto.rs: offset_from_position, line_col_from_position"]}
{"id": "C17", "title": "Position conversion preserves order", "statement": "Converting byte offsets to editor positions is strictly monotone on character boundaries, so a range never turns inside out and distinct boundaries stay distinct.", "quantifier": "for every text, every pair of boundaries and each encoding", "why_tests_cant": "Order preservation relates all pairs of offsets.", "anchors": ["crates/aether_lsp_utils/src/proto/to_proto.rs: range, position_from_offset"]}
{"id": "C18", "title": "Incremental text changes are applied with fresh positions", "statement": "Applying a batch of editor changes gives the same document as applying them one at a time, each against a line table recomputed from the text produced by the previous ones; reusing a stale line table (which the code does when a change lies entirely above the previous one) never changes the result.", "quantifier": "for every document and every batch of changes whose ranges are ordered start before end", "why_tests_cant": "Staleness depends on the whole sequence of earlier changes.", "anchors": ["crates/aether_lsp_utils/src/proto/from_proto.rs: apply_text_changes"]}
{"id": "C19", "title": "A full-document change discards everything before it", "statement": "If a batch of changes contains a change without a range, the result equals the text of the last such change with only the later changes applied, whatever the earlier changes and the earlier document were (including earlier changes that would be invalid).", "quantifier": "for every document and batch of changes", "why_tests_cant": "Earlier changes are arbitrary, including malformed ones.", "anchors": ["crates/aether_lsp_utils/src/proto/from_proto.rs: apply_text_changes"]}
{"id": "C20", "title": "The server's document equals the client's document after any edit history", "statement": "After any history of open, change and close notifications with valid ranges, the server's text of each open document is the client's text with CRLF turned into LF, provided every edit the client makes keeps CR LF pairs intact and introduces no lone CR; closed documents are forgotten and documents do not affect each other. The line table and syntax tree always belong to the current text.", "quantifier": "for every history of notifications over any number of documents, in every position encoding", "why_tests_cant": "Histories are unbounded, and client and server text differ in length (CRLF versus LF), so positions must agree although byte offsets do not.", "anchors": ["crates/lsp/src/documents.rs: Document::new, on_did_change", "crates/lsp/src/handlers_state.rs: did_open, did_change, did_close", "crates/aether_lsp_utils/src/proto/from_proto.rs: apply_text_changes"]}
{"id": "C21", "title": "Document versions never go backwards", "statement": "Through any history of notifications the stored version of an open document is the version of the last accepted change and never decreases; a change with an older version stops the server instead of being applied.", "quantifier": "for every notification history", "why_tests_cant": "Histories are unbounded.", "anchors": ["crates/lsp/src/documents.rs: on_did_change"]}
{"id": "C22", "title": "A batch of text edits is applied as if simultaneously", "statement": "Applying a list of non-overlapping edits, no two of which start at the same position, given in any order, replaces each edited range of the original document and leaves every other character in place. (Edits that start at one position are reversed or swallowed: refuted separately.)", "quantifier": "for every document and every list of non-overlapping edits with distinct starts, in any order", "why_tests_cant": "All permutations of all edit sets.", "anchors": ["crates/aether_lsp_utils/src/proto/from_proto.rs: apply_text_edits"]}
{"id": "C23", "title": "A computed text edit turns the old text into the new text", "statement": "The edit computed between two texts, applied to the first, gives exactly the second, for every sequence of equal/delete/insert chunks the diff may return for these texts; its pieces are ordered and disjoint.", "quantifier": "for every pair of texts and every valid diff between them", "why_tests_cant": "The diff algorithm may return any of exponentially many valid chunkings.", "anchors": ["crates/aether_lsp_utils/src/diff.rs: text_diff / diff", "crates/aether_lsp_utils/src/text_edit.rs: TextEdit::diff, TextEditBuilder, TextEdit::apply"]}
{"id": "C24", "title": "Edit builder keeps edits ordered, disjoint and equivalent", "statement": "For every sequence of pairwise disjoint replacements added in any order, finishing the builder succeeds, yields edits sorted by position, merges touching ones without changing the effect, and applying the result equals performing the replacements simultaneously; the length bookkeeping of the application never fails for in-bounds edits.", "quantifier": "for every text and every sequence of disjoint in-bounds replacements", "why_tests_cant": "Sorting, coalescing and back-to-front application interact for all sequences.", "anchors": ["crates/aether_lsp_utils/src/text_edit.rs: TextEditBuilder::{delete, insert, replace, finish}, coalesce_indels, TextEdit::apply, check_disjoint_and_sort"]}
{"id": "C25", "title": "Union of disjoint edits", "statement": "The union of two edits is refused exactly when they overlap in the order they interleave, never loses an edit, and applying the union equals applying both sets of replacements simultaneously to the original text.", "quantifier": "for every pair of edits and every text", "why_tests_cant": "All interleavings of two sorted edit lists.", "anchors": ["crates/aether_lsp_utils/src/text_edit.rs: TextEdit::union, check_disjoint"]}
{"id": "C26", "title": "Offsets are transported through edits", "statement": "For an offset outside every edited range, the offset reported after the edit points at the same character of the edited text; the offset is reported as lost if and only if it lies strictly inside a deleted range.", "quantifier": "for every text, every finished edit and every offset", "why_tests_cant": "All offsets relative to all edit lists.", "anchors": ["crates/aether_lsp_utils/src/text_edit.rs: TextEdit::apply_to_offset"]}
{"id": "C27", "title": "Formatting edits sent to the editor produce the formatted document", "statement": "When the client applies the edits returned by a format request to its own text, it obtains the formatted text in its document's line endings and nothing else, for LF and CRLF documents and every position encoding, when the configured line ending is auto or lf and the document still has the line endings it was opened with; edits are sent exactly when the formatted text differs. (Configured crlf on a CRLF document, and line endings changed after opening, are refuted separately.)", "quantifier": "for every document, formatted text, diff result, line ending of the document and encoding", "why_tests_cant": "Server text and client text differ; each returned range is in client coordinates.", "anchors": ["crates/lsp/src/handlers_format.rs: document_formatting", "crates/aether_lsp_utils/src/proto/to_proto.rs: replace_all_edit, text_edit, text_edit_vec"]}
{"id": "C28", "title": "Comment directives are recognised exactly in the documented form", "statement": "A comment acts as a directive if and only if, after its leading hash marks and white space, it reads fmt, a colon, and one of skip, skip file or table up to surrounding white space; a comment marks a generated file if and only if its text starts with Generated by. No other comment changes how code is formatted.", "quantifier": "for every comment text", "why_tests_cant": "The comment text is arbitrary.", "anchors": ["crates/comments/src/directive.rs: parse_comment_directive, parse_special_skip_file, trim_comment"]}
{"id": "C29", "title": "Requests are answered once, in order, and failures are contained", "statement": "Over any sequence of client events, every request gets exactly one response, responses are in the order the server took the requests, a failing handler leaves the server running and the documents of other files unchanged, and after shutdown no event is processed.", "quantifier": "for every sequence of events and every handler outcome", "why_tests_cant": "Event histories are unbounded.", "anchors": ["crates/lsp/src/main_loop.rs: GlobalState::main_loop, handle_event, respond", "crates/lsp/src/tower_lsp.rs: Backend"]}
{"id": "C30", "title": "Only files governed by an air.toml are synchronised to the editor", "statement": "A settings-sync notification mentions exactly the requested files that are governed by an air.toml, with that file's indentation and width, and is sent only when the client enabled synchronisation.", "quantifier": "for every workspace state and set of open files", "why_tests_cant": "All combinations of workspaces, configuration files and open documents.", "anchors": ["crates/lsp/src/notifications/sync_file_settings.rs", "crates/lsp/src/workspaces.rs: settings_for_url"]}
{"id": "C31", "title": "Workspace configuration follows the folder and file-watch history", "statement": "After any history of folder additions, removals and air.toml changes, a file's settings equal those of a fresh server that opened exactly the currently open folders against the current file system, provided each changed air.toml lies inside an open folder and parses.", "quantifier": "for every history of workspace events", "why_tests_cant": "Unbounded histories, stale state is the typical failure.", "anchors": ["crates/lsp/src/workspaces.rs: open_workspace_folder, close_workspace_folder, reload_workspaces_matched_by_url, settings_for_url", "crates/lsp/src/handlers_state.rs: did_change_workspace_folders, did_change_watched_files"]}
{"id": "C32", "title": "Editor configuration replies are matched to the right document", "statement": "When the server asks the client for its settings, the reply (a flat list) is split so that each open document receives exactly its own values and the global settings receive theirs; a reply of the wrong length changes nothing.", "quantifier": "for every number of open documents and every reply", "why_tests_cant": "Off-by-one chunking errors depend on the number of documents.", "anchors": ["crates/lsp/src/handlers_state.rs: update_config, update_documents_config, update_global_config", "crates/lsp/src/settings_vsc.rs"]}
{"id": "C33", "title": "Range formatting changes only whole logical lines touching the selection", "statement": "A range-format request returns either nothing or edits whose effect is confined to a run of consecutive sibling expressions in one expression list; the run contains every sibling of that list the selection touches, and text outside the run is untouched.", "quantifier": "for every syntax tree and every selection", "why_tests_cant": "Trees and selections are unbounded.", "anchors": ["crates/lsp/src/handlers_format.rs: document_range_formatting, find_deepest_enclosing_logical_lines, find_expression_lists"]}
{"id": "C34", "title": "Parsing loses no character of the source", "statement": "For every file that parses, the concatenation of all tokens with their leading and trailing trivia (white space, newlines, semicolons, comments) is exactly the source text, each piece non-empty, and every comment of the source is attached to exactly one token.", "quantifier": "for every source text and every tree-sitter tree of it", "why_tests_cant": "The conversion fills the gaps between tree-sitter tokens; gaps are arbitrary texts.", "anchors": ["crates/air_r_parser/src/treesitter.rs / parse.rs: RWalk, derive_trivia, handle_token, handle_comment_leave, RParse::trivia"]}
{"id": "C35", "title": "Trailing trivia stay on their line", "statement": "A trivia piece is classified as trailing only if no newline separates it from the token before it, and everything from the first newline on is leading trivia of the next token, so a comment after code on the same line is always a trailing comment and a comment on its own line never is.", "quantifier": "for every sequence of tokens, comments and gaps", "why_tests_cant": "Arbitrary gap texts including CR, CRLF and semicolons.", "anchors": ["crates/air_r_parser/src/parse.rs: derive_trivia, handle_comment_leave"]}
{"id": "C36", "title": "Argument lists keep their shape through parsing", "statement": "A call or subset with n commas between its delimiters becomes a list with n+1 arguments, an argument slot being a hole exactly if nothing but white space and comments stands between its delimiters; an empty call has no argument.", "quantifier": "for every argument list, with holes in any positions and comments anywhere", "why_tests_cant": "Hole patterns are arbitrary words over argument/comma.", "anchors": ["crates/air_r_parser/src/parse.rs: handle_call_arguments, handle_argument_enter, hole insertion"]}
{"id": "C37", "title": "Formatting never drops, adds or reorders code", "statement": "For every program, options and line-breaking decisions, the sequence of code tokens in the formatted output is the sequence of code tokens of the input up to three documented changes: a pair of braces added around a loop, if, else or function body, an assignment operator restyled according to assignment-style, and dropped semicolons.", "quantifier": "for every syntax tree, every option set and every outcome of the line-fitting decisions", "why_tests_cant": "Programs and layouts are unbounded; each nesting of constructs gives a new layout combination.", "anchors": ["crates/air_r_formatter/src/r/**", "crates/air_r_formatter/src/lib.rs: FormatNodeRule"]}
{"id": "C38", "title": "Formatting never drops, duplicates or activates a comment", "statement": "For every program with comments anywhere, each comment appears exactly once in the formatted output and is always followed by a line break or the end of the file, so it never swallows code and code never ends up inside a comment.", "quantifier": "for every syntax tree with arbitrary comment attachment produced by the placement rules, every option set and every layout outcome", "why_tests_cant": "Comment positions times layouts is unbounded.", "anchors": ["crates/air_r_formatter/src/comments.rs: RCommentStyle::place_comment and handlers", "crates/air_r_formatter/src/lib.rs: FormatNodeRule::fmt", "crates/air_r_formatter/src/r/auxiliary/*.rs"]}
{"id": "C39", "title": "Formatted code still parses as the same program", "statement": "In the formatted output a line break occurs only where R's grammar continues the expression (after a binary operator, inside parentheses, brackets or an argument list, after an if condition's closing parenthesis or before a body) or between two expressions of a list, so R reads the same expressions (up to added braces and restyled assignment).", "quantifier": "for every syntax tree, every option set and every layout outcome", "why_tests_cant": "R ends an expression at a newline depending on context; each context/layout combination matters.", "anchors": ["crates/air_r_formatter/src/r/auxiliary/binary_expression.rs", "crates/air_r_formatter/src/r/auxiliary/unary_expression.rs", "crates/air_r_formatter/src/r/auxiliary/if_statement.rs", "docs/formatter.qmd: 'Formatters do not change the meaning of code'"]}
{"id": "C40", "title": "Autobraces are balanced and never change which body belongs to which construct", "statement": "Braces are added in pairs around one complete body in every layout outcome: never around an already braced body, always around a loop body, for an if statement on all of its branches or on none.", "quantifier": "for every if/else chain, function and loop, every option set and layout outcome", "why_tests_cant": "The decision is passed down else-if chains of any length and depends on layout.", "anchors": ["crates/air_r_formatter/src/r/auxiliary/if_statement.rs: BracedExpressions, compute_braced_expressions", "crates/air_r_formatter/src/loop_body.rs", "crates/air_r_formatter/src/r/auxiliary/function_definition.rs"]}
{"id": "C41", "title": "Assignment restyling is valid R and keeps the program's structure", "statement": "With assignment-style equal, an arrow assignment is rewritten only where R's grammar accepts an equals assignment, never in an argument position, so the rewritten program is accepted by R with the same structure; with arrow every equals assignment becomes an arrow; preserve changes none. Super-assignment, right assignment and named arguments are never touched.", "quantifier": "for every expression tree and position in it", "why_tests_cant": "Permissibility is decided recursively through arbitrarily deep parents.", "anchors": ["crates/air_r_formatter/src/r/auxiliary/binary_expression.rs: fmt_left_assignment_operator, can_normalize_to_equal", "docs/configuration.qmd: assignment-style"]}
{"id": "C42", "title": "Skipped code is reproduced verbatim", "statement": "Code under a skip directive or a configured skip call is printed character for character (up to line endings), including its inner white space and comments, and the directive has no effect on any other code.", "quantifier": "for every syntax tree and every placement of skip directives", "why_tests_cant": "Suppressed nodes occur at any depth.", "anchors": ["crates/air_r_formatter/src/lib.rs: FormatNodeRule::fmt, is_suppressed, fmt_suppressed", "crates/air_r_formatter/src/comments_ext.rs: has_skip_directive, in_skip_setting", "crates/air_r_formatter/src/r/auxiliary/root.rs: is_suppressed"]}
{"id": "C43", "title": "A skip-file comment leaves the whole file alone", "statement": "A file is left as it is (up to line endings) if and only if one of the comments before its first expression is a skip-file directive, or its very first comment marks it as generated.", "quantifier": "for every file and every list of leading comments", "why_tests_cant": "The rule depends on the position of the comment among arbitrarily many.", "anchors": ["crates/air_r_formatter/src/r/auxiliary/root.rs: is_suppressed, fmt_suppressed"]}
{"id": "C44", "title": "Blank lines are capped, and everything else keeps its blank line", "statement": "Between two consecutive expressions the output has as many blank lines as the input, but at most one inside braces and at most two at top level.", "quantifier": "for every list of expressions and every number of blank lines and comments between them", "why_tests_cant": "Counts are unbounded.", "anchors": ["crates/air_r_formatter/src/joiner_ext.rs", "crates/air_r_formatter/src/r/lists/expression_list.rs"]}
{"id": "C45", "title": "Table layout aligns columns and keeps rows", "statement": "In a table-formatted call every row keeps its arguments in order, all cells of a column have the same width so that the commas line up, decimal points of a numeric column line up, and no row is split, joined or reordered; a cell that cannot be printed on one line turns table layout off rather than breaking the table.", "quantifier": "for every table shape (including jagged rows), every cell content and width", "why_tests_cant": "Column widths are maxima over unboundedly many rows and every mix of numeric and other cells.", "anchors": ["crates/air_r_formatter/src/call_arguments_table.rs: build_table, simple_padding, decimal_padding, ArgKind", "docs/formatter.qmd: Table formatting"]}
{"id": "C46", "title": "Persistent line breaks are kept", "statement": "If the source has a line break before the first argument of a call, before the first parameter of a function, or before the first right operand of a pipeline or operator chain, then with persistent line breaks enabled the output has a line break there and the list is laid out one item per line; with the option off, only width, comments and forced breaks decide.", "quantifier": "for every such construct, every content and every layout outcome", "why_tests_cant": "All nestings and layouts.", "anchors": ["crates/air_r_formatter/src/r/auxiliary/call_arguments.rs: has_persistent_line_break", "crates/air_r_formatter/src/r/auxiliary/parameters.rs", "crates/air_r_formatter/src/r/auxiliary/binary_expression.rs", "docs/formatter.qmd: Persistent line breaks"]}
{"id": "C47", "title": "Operator chains keep operand order and grouping", "statement": "Flattening a left-nested chain of binary operators of one precedence level for layout, then printing it, yields the operands and operators in source order; operators of a different precedence level are never merged into the chain, and parenthesised operands stay parenthesised.", "quantifier": "for every binary expression tree", "why_tests_cant": "Chains have arbitrary length and mix levels.", "anchors": ["crates/air_r_formatter/src/r/auxiliary/binary_expression.rs: fmt_binary_chain, TailPiece", "crates/air_r_syntax/src/lib.rs: OperatorPrecedence"]}
{"id": "C48", "title": "Formatting result is classified faithfully", "statement": "Formatting a source reports a parse failure exactly if the source does not parse, reports unchanged exactly if the formatted text equals the source character for character, and otherwise returns the formatted text; callers that write do so exactly in the changed case.", "quantifier": "for every source and options", "why_tests_cant": "The classification must hold for every source.", "anchors": ["crates/workspace/src/format.rs: format_source, format_source_with_parse, FormattedSource"]}
{"id": "C49", "title": "Formatting requests use the right settings", "statement": "Whatever happened earlier in the session, a formatting request for an open document is served with the settings of the air.toml that governs the document; if none does, with the default settings and the indentation style and width sent with that same request, never with values left over from earlier requests or configuration replies.", "quantifier": "for every history of events and every formatting request", "why_tests_cant": "Leftovers depend on unbounded histories of configuration replies, folder changes and requests.", "anchors": ["crates/lsp/src/main_loop.rs: handle_event", "crates/lsp/src/handlers_state.rs: did_change_formatting_options, update_config", "crates/lsp/src/workspaces.rs: settings_for_url", "crates/lsp/src/handlers_format.rs: document_formatting"]}
{"id": "C50", "title": "Formatting a file that parses never panics", "statement": "A file that parses without syntax errors is formatted: every rule finds the children it expects, no rule runs into unreachable!, expect or a failed assertion, and an output is produced, wherever comments and line breaks stand.", "quantifier": "for every source that parses, every placement of comments and every options", "why_tests_cant": "The rules rely on where comments get attached by a separate walk; whether some arrangement of nested operators, braces and comments reaches an unreachable! cannot be settled by samples.", "anchors": ["crates/air_r_formatter/src/r/auxiliary/binary_expression.rs: fmt_binary_chain, TailPiece", "crates/air_r_formatter/src/r/auxiliary/braced_expressions.rs: fmt_curly_curly", "crates/air_r_formatter/src/comments.rs: place_comment", "crates/air_r_formatter/src/lib.rs: format_node"]}
{"id": "C51", "title": "A file that parses has no bogus or incomplete node", "statement": "The syntax tree of a file that parses without syntax errors obeys the language definition r.ungram at every node: no required child is missing, none is surplus, and no node is bogus. The factory that builds nodes never loses a token of any tree, and whatever it changes it marks as bogus.", "quantifier": "for every source and every tree-sitter tree of it, and for every green tree handed to the factory", "why_tests_cant": "A node whose children disagree with the definition becomes bogus silently and is copied instead of formatted; which nestings of arguments, comments and holes produce one is unbounded.", "anchors": ["crates/air_r_factory/src/generated/syntax_factory.rs: make_syntax", "xtask/codegen/r.ungram", "crates/air_r_parser/src/parse.rs: RWalk", "crates/air_r_syntax/src/generated/nodes.rs: can_cast"]}
{"id": "C52", "title": "R's lexer splits the output into the tokens of the program", "statement": "Read by R's lexer, the formatted text falls into exactly the tokens of the tidied program, in order: no two tokens run together into another one (as `a<-1` for `a < -1`, `in` with a name, `]]` with `]`), none is split, and none disappears into a comment or a string.", "quantifier": "for every file whose tokens are R tokens, every choice of line breaks, every indentation and every options, comments inside tables aside", "why_tests_cant": "Whether two tokens may touch depends on the pair that meets and on the layout chosen between them; the pairs, layouts, numbers, names and raw strings are unbounded.", "anchors": ["crates/air_r_formatter/src/r/auxiliary/binary_expression.rs: fmt_binary_sticky, fmt_binary_chain", "crates/air_r_formatter/src/r/auxiliary/unary_expression.rs", "crates/air_r_formatter/src/r/auxiliary/call_arguments.rs", "crates/air_r_formatter/src/r/auxiliary/call_arguments_table.rs"]}
{"id": "C53", "title": "Comments stay with their statements", "statement": "In a file and in braces, a comment alone on its line before a statement is printed on a line of its own directly above that statement and below the one before it, in order; a comment at the end of a statement's last line is printed at the end of its last line; comments after the last statement stay behind it, each on the line it has in the source. In parentheses the comments after the opening one stay before the expression and those before the closing one behind it; empty braces keep theirs.", "quantifier": "for every source, tree-sitter tree, statement, options and choice of line breaks, gaps with a lone CR aside", "why_tests_cant": "Which node a comment is attached to depends on the nodes around it at every nesting, and where it is printed on the layout of the statement it is attached to; both are unbounded.", "anchors": ["crates/air_r_formatter/src/comments.rs: place_comment", "crates/air_r_formatter/src/r/lists/expression_list.rs", "crates/air_r_formatter/src/r/auxiliary/unary_expression.rs", "crates/air_r_formatter/src/comments.rs: handle_parenthesized_expression_comment"]}
{"id": "C54", "title": "Comments in headers go to the body, the condition or the statement", "statement": "A comment between the header of a loop, a function or an `if` and its body goes to the start of the body: above its first expression, into its empty braces, above the body that gets braces. A comment in the header of a loop or before the parameters of a function goes above the loop or function. Comments inside the parentheses of an `if` stay around its condition. Before `else`, a comment at the end of a line goes to the start of the first body and one on a line of its own to the start of the second, as do those after `else`, also if it is an `else if`.", "quantifier": "for every source, tree-sitter tree that conforms to the grammar, statement at any nesting, options and choice of line breaks, gaps with a lone CR aside", "why_tests_cant": "The place depends on the enclosing node, the nodes before and after the comment and the next token, for every nesting of statements and every kind of body; the snapshot tests have a few dozen combinations.", "anchors": ["crates/air_r_formatter/src/comments.rs: handle_for_comment", "crates/air_r_formatter/src/comments.rs: handle_while_comment", "crates/air_r_formatter/src/comments.rs: handle_repeat_comment", "crates/air_r_formatter/src/comments.rs: handle_function_comment", "crates/air_r_formatter/src/comments.rs: handle_if_statement_comment", "crates/air_r_formatter/src/comments.rs: handle_else_clause_comment"]}
{"id": "C55", "title": "Comments among operands, arguments and parameters stay next to them", "statement": "Between two operands, a function and its arguments, two arguments or two parameters, a comment at the end of a line stays with what is on its left, and one on a line of its own with what is on its right; next to a bracket or an operator with one operand, with the only neighbour. Where an argument is left out its comments stay with the argument before it, or at its comma; behind that comma with the argument that follows. Comments between the name of an argument and its value go in front of the name. Inside brackets without anything they stay there. With C53 and C54 this covers every gap between two tokens of the file. The order of the comments of an argument may change.", "quantifier": "for every source, tree-sitter tree that conforms to the grammar, node at any nesting and gap between its tokens, gaps with a lone CR aside", "why_tests_cant": "The place depends on the enclosing node, the nodes around the comment and up to three tokens, for each kind of node and each pattern of arguments left out; the snapshot tests have a few dozen combinations and cannot show that no gap is left out.", "anchors": ["crates/air_r_formatter/src/comments.rs: handle_argument_name_clause_comment", "crates/air_r_formatter/src/comments.rs: handle_argument_comment", "crates/air_r_formatter/src/comments.rs: handle_hole_argument_comment", "crates/air_r_formatter/src/comments.rs: place_comment"]}
{"id": "C56", "title": "Parsing goes over every node exactly once and ends", "statement": "The parser's main loop and the loops inside its handlers, which take events from one shared iterator, end for every tree that tree-sitter may return, with a syntax tree or a panic. Each handler gets exactly the events of its own node: no node is entered twice, left out (the insides of numbers and of string contents apart) or left by the wrong loop. On trees that describe the text the result is complete and holds every character of it.", "quantifier": "for every tree of tree-sitter, of any shape, depth and node names, and every source", "why_tests_cant": "The loops share a mutable cursor and stop at events for nodes found by identity; that none runs past its node or stops early depends on all nestings of calls, arguments, parameters and ifs, with holes, comments and skipped subtrees anywhere. A test sees one nesting.", "anchors": ["crates/air_r_parser/src/treesitter.rs: Preorder", "crates/air_r_parser/src/parse.rs: RWalk::walk", "crates/air_r_parser/src/parse.rs: RWalk::walk_next", "crates/air_r_parser/src/parse.rs: handle_arguments_enter"]}
{"id": "C57", "title": "Tokens of the syntax tree have the kind of their text", "statement": "Every operator, bracket, keyword and constant of the source becomes a token whose kind stands for exactly that text: no `->` becomes a `<-`, no `]]` a `]`. No two kinds stand for the same text. The other tokens are names, numbers, strings and special operators.", "quantifier": "for every source and every tree of it in which anonymous nodes are named by their text", "why_tests_cant": "The mapping from node names to kinds has ninety entries and a token may stand at any place of any tree; tests cover the entries they happen to use.", "anchors": ["crates/air_r_parser/src/treesitter.rs: node_syntax_kind", "crates/air_r_parser/src/parse.rs: handle_leave"]}
{"id": "C58", "title": "Formatting a formatted file", "statement": "`air format` run on its own output changes nothing (so that `air format --check` passes right after `air format`); and however often it is run, R reads the same program.", "quantifier": "for every R file, every layout the printer may choose, and any number of runs", "why_tests_cant": "Snapshot tests format chosen files twice at most; a comment may stand at any place of any expression, and where it is put decides where the next run finds it.", "anchors": ["crates/air_r_formatter/src/comments.rs: RCommentStyle::place_comment", "crates/air_r_formatter/src/r/auxiliary/binary_expression.rs", "crates/air_r_formatter/src/r/auxiliary/parameter.rs", "crates/air_r_formatter/src/r/auxiliary/call_arguments.rs", "crates/air/src/commands/format.rs: format_file"]}
{"id": "C59", "title": "An if statement can be copied anywhere", "statement": "In a formatted file no `else` starts a line: every `else` follows code and a blank on its own line, also inside braces where R would allow otherwise. So an if statement can be copied to any place, top level or a debugger's prompt included, and still parses (docs, \"Portability\").", "quantifier": "for every R file, every layout the printer may choose and every setting", "why_tests_cant": "Whether `else` lands on a new line depends on which of the nested groups break, on braces added in some layouts only and on comments around the bodies; snapshots show one layout of chosen if statements.", "anchors": ["docs/formatter.qmd: Portability", "crates/air_r_formatter/src/r/auxiliary/if_statement.rs: fmt_fields", "crates/air_r_formatter/src/r/auxiliary/else_clause.rs", "crates/air_r_formatter/src/r/auxiliary/unary_expression.rs"]}
