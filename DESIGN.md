# Design

Subject: `posit-dev/air`, read as text in `/repo` (pinned commit). Nothing was built or run.
Prover: Coq 8.16.1. All development is in `rocq/theories`, logical prefix `Verif`.

## Layout

Each area has up to four files.

- `<Area>Model.v`: computable Gallina definitions, each citing the file and lines it models. No proofs.
- `<Area>Spec.v`: a small specification that does not use the model's helpers.
- `<Area>Proofs.v`: lemmas.
- `<Area>Props.v`: only the property theorems, closed by `exact`, each with `Print Assumptions`, plus `Example`s
  that show a non-trivial instance of the hypotheses.

A theorem named `..._refuted` shows that a promise fails on the faithful model, with a concrete witness.
A theorem named `..._partial` proves part of the full statement; the missing part is named next to it.

## Trusted base

- Coq's kernel (and `vm_compute`, used only for closed examples and witnesses).
- The reading of the Rust code: every model definition cites its source lines.
- No axioms. (`vcheck` lists `Coq.ssr.ssrunder.*` because a loaded library declares it; no theorem uses it.) `Print Assumptions` is printed under each property theorem and must say
  "Closed under the global context".
- Behaviour of dependencies that are not in `/repo`. They are either Section variables (so theorems quantify over
  every behaviour, or over every behaviour meeting a stated contract), or small models listed here:
  - `biome_line_index` (line table, wide-character columns): modelled from its published source, see `LineIndexModel.v`.
  - `dissimilar::diff`: any list of chunks whose deletes+equals spell the old text and inserts+equals the new one.
  - `biome_formatter`: the builders the rules call, as documents (`IrModel.v`), and the *set* of layouts its printer
    may choose. The printer's width measurement is not modelled. `lay` over-approximates it (any group may be flat
    or broken, any variant of a best-fitting element may be taken), so theorems hold for every width decision. Comment
    formatting, suppression and verbatim copying of the library are transcribed in `FmtModel.v`. A verbatim copy is
    read as the tokens and comments of the copied node. Cells of tables are printed by any function that returns one
    of the cell's layouts (`cell_printer`).
  - `biome_formatter::comments`: `CommentsModel` transcribes its walk over the tree (`CommentsBuilderVisitor`: which
    nodes surround a comment, the default placement) from the published source of biome; air's own rules come from
    `comments.rs`. Whether the root follows the comments of a file without expressions is left open (`root_follows`).
    Theorems from the source on (`c37_source_*`, `c38_source_*`) compute the attachment. The other theorems on the
    formatter take it as data of the tree (`notes`); those on comments assume `placed`, which `FrontProofs` proves of
    every source up to comments inside tables (`tables_clear`).
  - `biome_rowan`'s typed accessors: `AstModel` reads the fields of a node by position; a tree that does not fit r.ungram
    is not read.
  - `tree-sitter`/`tree-sitter-r`: an arbitrary tree subject to the two assumptions in `ParseSpec.v`. `gram`: the shapes
    of parameter lists, argument lists, arguments, braces, `if` and literals that the walker relies on. `laid`: leaves
    lie in the text in order and are not empty, gaps hold only white space, semicolons and newlines, a comment starts
    with `#`, has no line feed and ends at a line ending or at the end of the text. The properties on complete trees
    (C50, C51) make two more assumptions, in `FactorySpec.v`. `conforms`: which sequences of children each node of
    tree-sitter-r's grammar has, comments aside (its source is not in `/repo`; the operand after `$`, `@` and `::` is taken
    to be a selector of r.ungram). `spelled`: an anonymous token has the text it is named after (C57 derives it from the names of tree-sitter's
    nodes, `called` in `NamesSpec.v`). The theorems of C52 from
    the source on assume in `LexSourceSpec.v` that R's lexer splits the source into tree-sitter's tokens, that named
    tokens begin as they do in R, and that a string is one piece (`read_by_r`).
  - `biome_parser::LosslessTreeSink` and `TreeBuilder`: transcribed from their published source in `ParseModel.v`
    (eating trivia, EOF token). The syntax factory (checks of child slots, conversion to bogus nodes) is modelled in
    `FactoryModel.v` as a second pass over the finished tree; empty slots are not represented. The `u32` limits
    of text sizes are not modelled. tree-sitter's cursor is a path in the tree (`PreorderModel.v`).
  - `biome_unicode_table`: the classes of white space and newline characters are written out in `is_whitespace` and
    `is_newline`. Rust's `char::is_whitespace` is written out in `DirectiveModel.v`.
  - `ignore` (walker, gitignore matching): predicates over paths, and an arbitrary split of the walk over threads.
    The reading of the default exclude patterns as globs (`globset`) is trusted.
  - `serde`/`toml`/`serde_json`: parsing is an oracle from file content to an option record or an error.
  - `tower-lsp`, `tokio`: channels are FIFO and unbounded. The client's answers to requests, the URL parser, the file
    system seen at each event and the order in which hash maps iterate are arbitrary (Section variables or universally
    quantified arguments of `WorkspaceModel.v` and `ServerModel.v`). JSON numbers are natural numbers standing for `u64`.
- R itself: `LexSpec.v` writes down how R's lexer splits a text into lexemes (line breaks and semicolons count as blanks
  there); `RReadSpec.v` goes on from there to marked tokens (kinds of lexemes, line breaks, semicolons, open delimiters,
  `else` after a line break). `FmtLineSpec.v` and `GrammarSpec.v` write down R's lexer (where a line break ends an expression) and grammar
  (precedence and associativity as in R's `gram.y`). The operand of a prefix `?` may contain `=`, as the formatter's
  own comments say. The parser accepts a little more than R does: any atom as the name of an argument, any operand
  after `$`, `@`, `::`. The trees of the source are taken to be R's (`grammatical`), not tree-sitter's where they differ.
- Text is a list of Unicode scalar values (`N`), not bytes. Byte offsets are computed with the UTF-8 length of each
  character. An operation that Rust would reject at a non-boundary offset is an explicit error value.
- Machine integers are unbounded unless the property is about their bounds (C04).
- A Rust panic (`unwrap`, `expect`, `assert!`, `unreachable!`, slice out of range) is an explicit error value.

## Properties

| id | what is modelled and how it is proved |
|----|----------------------------------------|
| C01 | `LineEndingModel`: the moving-gap loop of `normalize` as recursion on the tail. Proved equal to the one-pass filter "drop CR before LF" by induction on the number of pairs. |
| C02 | Same model. `normalize` leaves a CRLF iff the input has CR CR LF; idempotent otherwise; refutation witness for the unrestricted claim. |
| C03 | `infer`/`finalize` against a separate "first line ending" scanner. Agreement on non-mixed texts proved, the documented rule refuted on mixed texts. |
| C04 | `SettingsModel`: `TryFrom`/`FromStr` with the machine-integer bounds written out. |
| C05 | Sorted vector and the binary search loop of the standard library (modelled as the textbook loop); invariant proof, lookup iff membership. |
| C06 | Option records of TOML/editor as records of options; per-field statements through a generic field list; the options that select files are stated one by one. |
| C07 | `ResolverModel`: sorted association list under the component-wise path order. Refinement to a finite map over `fold_left` of operations; reverse scan = longest prefix. |
| C08, C09 | `DiscoverModel`: file system = oracle from directory to optional parse result; the ancestor loop with shared `seen` set. Invariant: every seen ancestor was followed up to its first toml or root. |
| C10, C11 | `WalkModel`: directory tree inductive; per-entry visitor; walk sequential, then any partition/interleaving over threads (permutation). Both outcomes are characterised: the files delivered (`selects`) and the failures reported (`fails`, directories that cannot be listed and entries that cannot be inspected). |
| C12 | stdin decision equals the depth-0 visitor on a regular file. |
| C13, C14, C15 | `CliModel`: file system as a finite map, formatter as oracle; runs as folds; check vs write relation; crash = prefix of writes. |
| C16, C17 | `LineIndexModel`: newline table, wide chars; spec counts code units. |
| C18, C19, C20, C21 | `DocsModel`: apply_text_changes and notification histories. Simulation between client text and server text through `normalize`. |
| C22 | `apply_text_edits` against simultaneous replacement; refuted for several insertions at one position. |
| C23-C26 | `TextEditModel`: indels, builder, coalesce, apply, union, apply_to_offset; spec = simultaneous replacement defined by walking the text. |
| C27 | composition of the diff, position conversion and the client's application of edits. |
| C28 | `DirectiveModel` with an independent grammar of directive comments. |
| C29, C49 | `ServerModel`: event loop state machine; trace properties by induction on events. |
| C30, C31, C32 | `WorkspaceModel`, `ServerModel`: settings resolver of the workspace folders, file-watch events, configuration requests. A configuration file may be broken and repaired while its folder is open (`watched`); only a folder that is being opened must have a usable one (without this C31 is refuted). |
| C33 | `RangeModel`: trees with ranges, the two preorder searches, the covering range and the edit. `RangeSpec`: subtrees with the text around them, the run of a selection, the deepest list. Formatting the run is an oracle. |
| C34, C35, C36 | `ParseModel`: the walk over tree-sitter's tree, the gap scanner and the sink. `ParseSpec`: leaves, shapes, assumptions. `ParseProofs`: the walk pushes the events of the spec's shapes and treats trivia leaf by leaf. `ParseTree`: the sink turns events and trivia into the tree, each token getting back exactly its leaf. |
| C37, C38, C40, C41 | `FmtTree`: typed trees with attached comments. `FmtModel`: the rules node by node, `TableModel` the table layout. `FmtSpec`: tokens and comments of a tree, `tidy` (the programs a source may become), `eq_ok` (where R accepts `=`). `FmtTidyProofs`: every layout of the document of a node prints the tokens of a tidied node, its comments once each, and nothing after a comment on its line (induction on trees). `FmtFactProofs`: what tidying implies. `CommentsModel`, `AstModel`: the way from the parsed source to the typed tree (`source_root`): comments attached by biome's walk and air's placement rules, facts about line breaks taken from trivia. `CommentsProofs`: an invariant of the walk. `FrontProofs`: the typed tree has the tokens of the source, its comments once each, and dangling comments only in empty nodes. C41 also uses `GrammarSpec` (see C39). |
| C42, C43 | `FmtPathSpec`: `in_file` (the nodes the formatter lays out, with their places), `inside` (all nodes). `FmtPathProofs`: the layout of a node of the file is a segment of the layout of the file. `FmtSkipProofs`: a document copies only nodes whose formatting is switched off, and table arguments. |
| C44 | `spaced` in `FmtPathSpec`; `FmtEdgeProofs`: what is printed for an expression begins and ends with a word; `FmtBlankProofs`: the printer run in stretches. |
| C46 | same model. `line_marks` gives every printed token with whether a line begins before it; after a line break before the first argument, parameter or right operand every item begins a line, for every layout the printer may choose. Option off: files that differ only in single line breaks get the same document (no skip or table directives). `test_that("..", {..})` calls lose the line break (refuted). |
| C47 | same model. A left-nested chain (`chain`) is printed in order and broken as a whole; precedence along it never rises. Operators of different precedence do share one chain (refuted: `a *⏎ b + c`). |
| C39 | same model. `FmtLineSpec`: `read` goes through the printed file as R's lexer does and marks the tokens before which R saw the end of an expression; `program` puts the marks between the expressions of lists; `reread` relates the two up to added braces and restyled assignments. `FmtLineProofs`: from every reader state in which a node may start, every layout of its document reads as a tidied node (induction on trees). `tame`: token kinds fit their places, and outside parentheses no comment stands before the arguments of a call, after `::`, before `else` or at the operand of a unary operator; with such comments the claim is refuted. `GrammarSpec`: R's grammar as a parser of marked tokens (operators, precedence, calls, headers, `else`), the trees it builds (`grammatical`) and sameness of programs up to braces around bodies, the assignment operator and carriage returns in strings. `GrammarProofs`: a grammatical tree is what the parser makes of its tokens. `GrammarTidyProofs`: tidying keeps trees grammatical and the program the same. On texts: `RReadSpec` reads a text as R does, from characters to marked tokens (`tokens_of`: lexemes of `LexSpec`, kinds of lexemes, line breaks and semicolons, open delimiters, `else` after line breaks); `RRunProofs` runs that reader and the one of `FmtLineSpec` side by side over the rendered output; `RNestProofs` turns lexemes back into tokens; `RWideProofs`: a copied range reads the same where more line breaks are thrown away. From text to text: `GrammarSoundProofs` (a program the parser accepts is made of its tokens in order, and its tree is grammatical), `GrammarMapProofs` (the parser only looks at kinds), `RSoundProofs` (the tokens R reads have the kinds of their texts and its strings are whole), `RProgramSpec`: `r_program`, the programs R makes of a text; `RProgramProofs`: if R makes the formatted tree of the source, it makes the same program of the output. Copied ranges: `RSliceProofs` (the items of a stretch of the source between two tokens are those of the stretch alone), `RTailProofs` (what ends a node), `RNormProofs` (R reads a text and the text with normalised line endings alike), `RCutProofs` (every node of the typed tree is such a stretch), `RFitProofs`, `RKeptProofs`: copied ranges read in the output as the nodes they are, so `c39_program_kept` assumes of them only that they do not move from parentheses into added braces (`stays`). A range that does so refutes the claim (`c39_skipped_refuted`). |
| C38, C42-C44, C46 from the source | `SourceSpec`: the nodes of the typed tree by the number of tokens before them (`root_nodes`), their place among the leaves of tree-sitter's tree (`spot`), line breaks between two tokens of the source (`source_gap`, `breaks_in`), comments of the source (`comment_spot`). `SourceProofs`, `SourceCommentProofs`: what the typed tree says about texts, line breaks and comments is what the source says. `SourceNodeProofs`: the same for the nodes that are laid out. Facts about line breaks hold where every CR of the gap is followed by LF (`cr_paired`): the CLI does not normalise line endings before parsing, and the walker treats a lone CR as a line break in some places only. |
| C45 | `TableModel`. `FmtTableSpec`: the lines of the source as rows (`lines_of`), rows printed with commas, decimal points and beginnings at fixed columns (`rows_shown`), cells that fit on one line and cells that cannot. `FmtRowProofs`, `FmtGridProofs`: the rows built are the lines of the source and are printed with those columns. `FmtCellProofs`: documents of fitting cells have no line break once soft breaks are removed; braces and multi-line strings always have one. Widths are counted in code points. Cells have no comments inside (refuted otherwise under C38); a comment before a number unaligns it (refuted). |
| C50 | same model. The panicking places of the rules are `DPanic` in the document. `CommentsProofs`: no comment leads the left operand of a chain of operators. `TotalProofs`: then no `DPanic` is reached (induction on trees), and a document without one has a layout. `FactoryTyped`: every complete tree (C51) is read by the typed accessors, so the hypotheses hold of every source. |
| C51 | `FactoryModel`: the slots of every node kind as the factory checks them. `FactorySpec`: r.ungram written down again as rules, independent of the factory. `FactoryProofs`: the shapes the walk builds from a conforming tree obey the rules (induction on trees), a tree that obeys them passes the factory unchanged, and the factory never loses a token and changes nothing without marking it bogus. |
| C52 | `LexSpec`: R's lexer as a character automaton, and the text of a printed output under any indentation. `LexProofs`: feeding a token to the automaton after any lexeme that the token's first character ends. `LexSealProofs`: a document is sealed between two sets of characters when every layout of it, entered where the first set ends the lexeme being read, yields its tokens and is left where the second set does; sealing composes. `LexTreeProofs`: every rule is sealed (induction on trees). `LexRunProofs`: the printer's merging of spaces and the comments at line ends do not disturb it. The hypothesis `lexical` says that the tokens, comments and copied sources of the tree are spelled as R spells them; a name in backticks that holds a line break is not covered, and the output has line feeds only. `LexSourceSpec`, `LexAlignProofs`, `LexSourceProofs`: `lexical` follows for every tree that the front end builds from a source that R's lexer splits into tree-sitter's tokens (`read_by_r`), by cutting R's run over the source at the boundaries of the tokens; this gives the statement from text to text (`c52_source_read`). |
| C53 | `PlaceSpec`: the comments between two tokens of the source and whether they are alone on their line (`gap_comments`), the expressions of the file or of braces by the tokens before them (`sequence`). `AroundProofs`: the walk of the comments builder gives every comment the nodes around it in the tree. `PlaceProofs`, `PlaceSourceProofs`: the rules of comments.rs then attach it to the statement next to it. `DressSpec`: comments above a text and behind it (`heads`, `follows`). `DressProofs`: the printer puts the comments of a statement there, whatever layout is chosen. `PlaceDressProofs`: both together. `calm e`: no comments on the operand of a sign that ends the statement; without it the comment at the end of the line gets a line of its own (refuted). |
| C54 | `BodySpec`: the gaps between a header and its body (`before_body`) and in a header (`in_header`), counted in tokens; the comments at the start of a body (`body_notes`, `alternative_notes`); `holds`: the comments of the gap are among a node's, together and in order. `BodyProofs`: from the nodes around the comment (`AroundProofs`) and the next token, the rules of comments.rs:107-666 give the place; that a body does not begin with `)` follows from `complete` (C51). `BodyDressProofs`, `BodyProps`: the theorems on the attached comments for all statements, on the printed lines for loops and functions that are statements and for bodies in braces that are not empty. Conditions, bodies that get braces and all other places in the output: see C55, `ShownProps`. |
| C55 | `BesideSpec`: `beside`, the gaps next to an operand, argument or parameter with the expressions on both sides; `shared`, which comments belong to which side; `hole_notes`; `placed_gap`, the gaps of C53-C55 together. `BesideProofs`: the default rule of biome_formatter (comments/builder.rs, `default_place`) and the rules of comments.rs:711-1008, from the nodes around the comment. `BesideCoverProofs`: each gap between two tokens is a `placed_gap` (`c55_every_gap`), so none of the properties overlooks a place; the gaps inside of strings are the only ones without a statement (there are no comments). `c55_order_refuted`: two comments of a named argument change places. `ShownSpec`: `laid_out`, the nodes the formatter lays out itself, with the arguments and the chains inside of chains; `shown_above`, only comments between the comment and the text of the node, which begins on a new line; `shown_behind`, no token between the text of the node and the comment but what is on its last line; `shown_inside`. `StillProofs`: what the printer writes between the tokens of a document does not hold back a comment. `ShownProofs`, `ShownSourceProofs`: the comments of each such node are there in every output, hence those of C53-C55. `ShownCoverProofs`: every node of the file is `laid_out` or `hidden` (inside a copied node, a table or `{{ }}`), so these are the only ones without a position (the comments there are kept, C38). A node is known in the output by its tokens. |
| C56 | `PreorderModel`: the `Preorder` iterator, `walk`, `walk_next` and the loops of the handlers as they are written, over a cursor and events; a node is the path to it, loops have fuel. `PreorderSpec`: `conv`, the tree with kinds for names; `comes_to`, the result with enough fuel. `PreorderProofs`: by induction over the tree, entering a node leads to leaving it with the walker of `ParseModel.walk`, for every place where the enclosing loop stops. All theorems on `parse` hold of `parse_tree` by `c56_parse_is_recursion`. |
| C57 | `PreorderModel.node_syntax_kind`; `NamesSpec`: the rules of tree-sitter-r's grammar (assumption), `called`: a node no rule names is called by its text; `fixed_text`, the text of each kind of token. |
| C58 | `TwiceSpec.run_once`: one run with the conditions of `c39_program_kept`, `run_often`: any number of them, each in any layout. The output is the same whatever the indentation is in the refutations: `ptext` leaves it out, and every layout of the second run is tried. A positive statement for files without comments is not proved: it needs the tree of the output, which tree-sitter (not modelled) makes. |
| C59 | `PortableSpec.else_follows_code`: before every `else` of the output stand a token (or copied range) and blanks, no comment and no line break. `PortableProofs`: a tracker of what was printed last goes through every layout of every rule, as in C39. `else_free`: names and operators are not `else`, no comment is attached to an else clause (`c59_comment_refuted` shows what would happen) nor to the operand of a unary operator, comments dangle only in brackets. `PortableSourceProofs`: in the walk over the syntax tree the node that follows a comment stands in the node that encloses it, so every comment before `else` meets `handle_if_statement_comment`, which never leaves it to the default; hence from a source only `else_plain` is asked: kinds of tokens, no comment inside a name, number or string, none at the operand of a unary operator. Not covered: such an operand (in the model's layouts a group may break inside one that does not, so that the operand's last line break could come before `else`; the printer's propagation of forced breaks rules that out), and that an if statement over several lines is always braced, which needs the same propagation. |
| C48 | `CliModel`. |

Not modelled: logging, shell completions, the Zed/VS Code extensions, code generators in `xtask`, `biome_ungrammar`,
the test harness crates, timing and memory use.
