# A Rocq model of HannesKimara/cddlc

`/repo` is read as text; nothing is built or run. The model lives in `rocq/theories`
and is one Gallina definition per Go function, each with a comment citing the file and
lines it models. Model files contain no proofs; proof files contain no model
definitions; the property theorems are in `Props_*.v`, named after the property
(`C07_…`), each with an `Example` beside it that meets its hypotheses, together with
the lemmas special to them. Specifications are in `LexSpec.v`, `LexSpec2.v`,
`ParseSpec.v`, `StrconvSpec.v`, `Doc.v` and, where short, at the head of the `Props_*.v`
file that uses them; they do not call the model's functions.

## Conventions

* Bytes, runes and Go `int`s are `Z`; a Go string or byte slice is `list Z`
  (`bytes`). Slice *aliasing* is modelled only where a property is about it (C12).
  Go `int` overflow is not modelled (a source would need 2^63 bytes); `int64`/`uint64`
  range checks of `strconv` are.
* Every function that can crash or loop returns `res A = Ok a | Panic | Hang | NoFuel`.
  `Panic` is a Go run-time panic. `Hang` is a Go loop that never ends (the lexer loops
  get fuel derived from the source length, and a theorem shows that running out of it
  means the loop does not end with any fuel). `NoFuel` is the parser's recursion fuel;
  theorems show it does not occur for the fuel `ParseFile` is given.
* `nil` is explicit: `NNil` is a nil interface, `NTypedNil k` a nil pointer of type `k`
  stored in an interface (Go's "typed nil"), `option` for nullable pointers.
* External behaviour is a parameter record over which the theorems quantify, so nothing
  is assumed about it unless a theorem says so in its hypotheses:
  `Ext` (`unicode.IsLetter`/`IsDigit` above Latin-1, `strconv.ParseFloat`),
  `ReplExt` (`strings.TrimSpace`, `%f`), `GenExt` (`strcase.ToCamel`,
  `token.IsIdentifier`, `strings.ToLower`, `strconv.FormatFloat`, which of two releases
  of go/ast), `CliExt` (`go/format`, the JSON and YAML decoders, `filepath.Glob` below
  directories with pattern characters, `%+v`, `strconv.Quote`, `json.MarshalIndent`,
  `os.Args`), `OsExt` (which system calls fail), `MainExt` (build variables, the line
  `log.Fatal` prints) and `JsonExt` (the text of a float64, the release's escapes of \b and
  \f, whether a number is in float64's range, decoding a second array into the same slice).
  `withJson` replaces the JSON part of `CliExt` by the model of `encoding/json`; theorems
  without it hold for any decoder and encoder.

## Files

Model:

| file | models |
|---|---|
| `Base.v` | result monad, bytes, slices |
| `Ext.v` | the external behaviour of lexer and parser |
| `Utf8.v` | `unicode/utf8.DecodeRune`, `string(rune)` |
| `Token.v` | `token/token.go`, `token/position.go` |
| `Strconv.v` | `strconv.ParseUint/ParseInt(…,0,64)` |
| `SliceModel.v` | `append` in `lexer.NewLexer`, with backing arrays |
| `Shared.v` | several lexers over slices of the caller's arrays (`lexer.go:52-210`) |
| `Lexer.v` | `lexer/lexer.go` |
| `Ast.v` | `ast/*.go` |
| `Texts.v` | the `String` methods of `ast` |
| `Env.v` | `environment/environment.go` |
| `Diag.v` | `parser/diagnostic.go`, error messages |
| `Parser.v` | `parser/parser.go` |
| `Print.v` | `ast/astutils/print.go` |
| `Walk.v` | `ast/astutils/walk.go` |
| `SharedEnv.v` | `parser/parser.go`, several parsers with one `Environment` (`WithEnv`) |
| `HeapWalk.v` | `ast/astutils/walk.go` again, on nodes in memory that visitors may modify |
| `Repl.v` | `cmd/cddlc/commands/repl.go` |
| `Codegen.v` | `transforms/codegen/golang/*.go` |
| `Validators.v` | `runtime/validators/validators.go` |
| `Cli.v` | `cmd/cddlc/commands.go`, `commands/generate.go`, `commands/init.go`, `config/config.go` |
| `Main.v` | `cmd/cddlc/main.go`, `DoctorCmd`, the text and exit status of every command; `bufio.ScanLines`, `strings.TrimSpace` |
| `Config.v` | `config/config.go:19-76`: plugins, `Config.Valid` |
| `Scanner.v` | `bufio.Scanner` with its buffer (`repl.go:23-75`), shared with the lexer's `append` (`lexer.go:55`) |
| `Json.v` | `encoding/json` for the types used: `MarshalIndent` of the tree, the encoder of `init.go`, `Decode` into `config.Config` |

Specification: `LexSpec.v`, `LexSpec2.v` (lexemes, positions, token sequences),
`LexSpec3.v` (the complete lexical grammar),
`ParseSpec.v` (attribute grammar over token lists), `StrconvSpec.v` (numerals and their
values), `Doc.v` (abstract documents, their spelling, their trees), `JsonSpec.v` (RFC 8259),
`TreeSpec.v` (the document of a tree), `ConfigSpec.v` (the configuration of a document),
`GoSpec.v` (the rules of Go that files of the generated shape must obey), `GoFmt.v`
(`fmt.Sprintf` for the verbs used), `Cddl.v` (CBOR data and which of them a document describes),
`GoCbor.v` (values of Go types and their CBOR), `GoRead.v` (reading CBOR into them), `GoCheck.v` (a checker for `GoSpec.v`, for examples).

Proofs: `LexerProofs.v`, `LexOne.v` (one `Scan`), `LexSeq.v` (all of them), `LexHang.v`
(non-termination), `LexWords.v`; `SliceProofs.v`; `StrconvProofs.v`; `ParseStream.v`,
`ParseFacts.v`, `ParseSound.v`, `ParseLoop.v`, `ParseTop.v` (soundness and termination),
`ParseComplete.v`, `ParseFileC.v` (completeness), `ParseShape.v`, `ParseTree.v`,
`ParseLoose.v`, `ParseTried.v` (facts about trees), `ParseSource.v` (whole sources),
`ParseUnique.v`, `ParseFuel.v`, `ParseFrame.v`, `ParseTwin.v`, `ParseLayout.v` (positions apart), `ParseRename.v` (names and positions apart), `ParseLocal.v` (what a result depends on), `ParseConcat.v` (files of the grammar one after the other), `ParseTokens.v`, `Rfc.v` (the grammar of RFC 8610), `RfcProofs.v`,
`ParseNoPanic.v`, `DocProofs.v`, `DocText.v`, `EnvProofs.v`, `CliProofs.v`, `ParseDup.v` (redefinitions),
`Utf8Proofs.v`, `JsonProofs.v`, `JsonEnc.v`, `TreeJson.v`, `ConfigProofs.v` (JSON).

Check of the model: `RepoTests.v` runs it on the repository's own tests
(`lexer/lexer_test.go`, `parser/parser_test.go`, `environment/environment_test.go`,
`gen_test.go`, the files of `testdata/language` and the sources of `examples/`). All
expectations hold of the model, also with a comparison of trees that does not skip
mismatches as the repository's `testWalk` does. These are tests, not properties.

## Trusted base

* The kernel of Coq 8.16.1 (including `vm_compute`), and `coqchk`.
* `Print Assumptions` says "Closed under the global context" for every theorem listed in
  `MANIFEST.json`: no axioms at all, neither ours nor the standard library's.
  `tools/assumptions.sh` prints the list again.
* That the Gallina definitions say what the cited Go lines do. The parts of the Go
  language and its library that are modelled by hand are: `utf8.DecodeRune` and
  `string(rune)` (Utf8.v), `append` and slicing (SliceModel.v, Base.v), maps as
  association lists (Env.v), typed nils and type switches (Ast.v), `strconv.ParseInt`,
  `ParseUint` and `%d` (Strconv.v, Base.v), `strings.Split/TrimLeft/HasPrefix/TrimSuffix/
  Join/TrimSpace`, `utf8.DecodeLastRune`, `bufio.Scanner` with `ScanLines`, `encoding/json` (Json.v), `filepath.Base/Ext` on names, `fmt`'s `%*s`, `%+v` of files (Texts.v; addresses are parameters), IEEE-754 comparison on bit patterns
  (Validators.v), the sizes of types on 64-bit platforms, and the file system (Cli.v).
* For C82, C83 and C96: that `Cddl.v` says what RFC 8610 and `GoCbor.v` and `GoRead.v` what Go and
  fxamacker/cbor (default options, structs written as arrays only, data without tags) say. The repository does not import that
  package; the tags it generates are those of it.
* That the statements say what `properties.jsonl` says in English.

## What is modelled and what is not

Modelled: every function of the packages `token`, `lexer`, `ast`, `environment`,
`parser`, `ast/astutils`, `transforms/codegen/golang`, `runtime/validators`, and of
`cmd/cddlc` and `config` those named in the file table.

Not modelled, or simplified:

* The Go stack limit: deeply nested sources overflow the goroutine stack in reality;
  in the model recursion is unbounded.
* `int` overflow (it would need a source of 2^63 bytes), memory exhaustion.
* Concurrency: calls that overlap in time, of two lexers over one backing array (calls in
  turn are Shared.v) or of two parsers sharing an `Environment` (calls in turn are
  SharedEnv.v).
* The text `log.Fatal` and the run-time system print when a command fails or crashes (the
  former is a parameter); errors reading the standard input.
* Main.v treats the lines the REPL reads as values, though `NewLexer` writes a space behind
  them in the scanner's buffer (C12); that this makes no difference is C76.
* An `Entry` or `Rule` whose `Name` is nil, but for `Walk` (`HeapWalk.v`).
* `go/format` beyond being a function of package name and declarations; the error it may
  return (the code drops it as well). `go/ast.SortImports` is modelled by the one effect
  that matters (whether it rebuilds `File.Imports`), a parameter.
* The module is taken to be built with the loop-variable semantics of go 1.21 (go.mod).
* The file system has no links and paths are cleaned lexically; each call sees the
  effects of the calls before it and nobody else writes.
* The `urfave/cli` argument parser (Main.v starts from a command's name and its positional
  arguments), its help texts and unknown commands, the options of the configuration. `Config.Valid` (Config.v) is never called by the commands;
  decoding plugins is modelled only as far as whether it succeeds.
* YAML decoding is a parameter; of JSON only what `JsonExt` lists.
* Test files and `examples/` (their expectations are run in `RepoTests.v`).

## Plan per property

* **C01–C05, C10, C11** Lexer over arbitrary bytes. Invariant `At l pre suf` (source =
  consumed prefix + remaining suffix, the state is a function of the suffix), proved
  for `NewLexer` and preserved by `next`; each scanning loop is characterised on the
  suffix; properties of all tokens by induction over the sequence of scans. Divergence:
  invariant "the read offset never passes the first undecodable position".
* **C06, C07, C09** lexeme classes are specified in `LexSpec.v` without reference to
  the lexer; one lemma per class, then induction over the list of lexemes.
* **C08, C13** finite table facts by computation lifted to all tokens, plus case
  analysis for all strings.
* **C12** explicit backing-array model of `append`.
* **C14** fuel induction with the number of remaining tokens as measure.
* **C15** Hoare-style induction: parse functions restricted to streams without the
  excluded tokens (`ParseNoPanic.v`); witnesses for each exclusion by computation.
* **C17, C48** an attribute grammar over token lists (`ParseSpec.v`: relations, no
  precedences, no parser state); soundness (`ParseSound.v`, `ParseLoop.v`, `ParseTop.v`),
  completeness (`ParseComplete.v`, `ParseFileC.v`), unambiguity from the two.
* **C16** abstract documents with a spelling and a tree (`Doc.v`); every document is in
  the grammar (`DocProofs.v`) and every layout of it lexes to its tokens (`DocText.v`).
* **C23, C24** by induction over chains and entry lists inside that grammar.
* **C18–C20, C22, C27–C30** invariants over the parser state carried by the same
  fuel induction (tasks recorded, environment monotone, positions from the stream).
* **C21, C46** correctness of the `strconv` model against positional value.
* **C25** from C17 plus `node_start`.
* **C26** position invariant composed with a model of `errorStringer`.
* **C31, C32** induction over histories.
* **C33–C35** structural induction over trees against a separately defined preorder.
* **C36–C40** structural induction over trees; go/ast is modelled as data, printing by
  `go/format` is outside the model.
* **C41, C51** integers as `Z`, floats as bit patterns compared by sign and magnitude.
* **C49, C50** the printer's crash condition as a predicate on trees, carried through
  REPL sessions by induction over the lines.
* **C52–C56** consequences of the generator's exact output (C36–C40).
* **C57–C62** case analysis of the commands over the file system model.
* **C63** printed numbers are injective and end at the first non-digit.
* **C64** induction over the grammar: what an entry starting with a numeral begins with.
* **C65** the completeness proof of C17 repeated with a list of redefinitions, and the
  checks' diagnostics as a relation.
* **C42–C45** file system as a finite map, `go/format`, JSON and YAML decoding as oracles.
* **C66** every branch of `lexOne` is a rule of the grammar and conversely; then induction
  over the calls of Scan.
* **C67–C69** C67 by cases over the one-token nodes of the tree's shape and the lexical
  grammar of C66; C68 and C69 by induction over the grammar, tokens being in source order.
* **C70** by induction over the input; white space encodings are a prefix and a suffix code.
* **C71** a turn of the REPL is a rule of a small transcript relation and conversely.
* **C72** case analysis of the commands, on top of C42–C45, C66 and C71.
* **C73** the encoder's text is in RFC 8259's grammar and denotes the document; the document
  of a tree is unique and, for the trees a parser returns, determines the tree.
* **C74** the decoder's scanner accepts exactly the grammar; members are folded into fields.
* **C75** C73's encoder and C74's decoder are inverse on configurations.
* **C76** Scanner.v keeps the buffer in the heap of SliceModel.v. Invariant: the lines still to
  come are the lines of the buffered data and the unread input, and the cell behind the current
  line is outside the data; a lexer's write keeps it.
* **C77** Induction on the plugins; paths and directories have relational specifications.
* **C78** GoSpec.v states Go's rules on the generated syntax tree, Props_GoFile.v the corresponding
  conditions on CDDL; both are compared along the relation of C36 between the two. GoSpec.v is
  trusted to be the relevant part of the Go specification: it is for files that declare no
  predeclared identifier (`Fresh`), 64-bit `uint`, and leaves open (`twice`) whether a
  tree that imports a package twice is accepted.
* **C79** an invariant of the parser: its two tokens are consecutive tokens of the source, the
  nodes it returns and the tasks it defers come from such tokens; definitions are never lost.
  The loop of operators keeps: either it is over, or the token it stands on says what its left
  operand is.
* **C80** the formats are copied from parser.go and read by the relation `Sprintf` (`GoFmt.v`).
* **C81** likewise; to read a text back, induction on its length: a printed node ends where its
  closing text does, and a type's name ends before a comma or a line break.
* **C82, C83** three independent meanings meet: `Cddl.v` (which data a document describes, RFC
  8610), `GoCbor.v` (the values of Go types and how fxamacker/cbor writes them) and the relation of
  C36 between rules and types. Induction on the typing of the value, respectively on the matching
  derivation. Matching is existential (an item matches if it can be split up somehow); for the
  documents of the theorems it does not differ from the greedy matching of RFC 8610, appendix A,
  without optional members. The counterexamples are in `Props_Lossy.v`.
* **C84** a simulation: parsers whose tokens, errors, definitions and tasks agree when positions
  are erased stay so; `isSameLineTokens` is the only test of a position. The lexical grammar of
  C66 gives the tokens of a source with other blanks; a lexeme followed by a blank is the same
  lexeme whatever follows the blank (`lexed_apart`).
* **C85** every function of the parser returns the same with any lexer that gives the tokens it
  scanned (`ParseLocal.v`). The tokens of a source are the first ones of the source with further
  lines; so each attempt at a rule that does not see the end of the source is the same in both.
* **C86** by the grammar of C17: an entry may be followed by any token that ends it as EOF does.
  The positions of the second source are those it has after blanks with the lines of the first;
  C84 says that blanks before it do not matter.
* **C87** by two bounds carried through the parser: diagnostics start no earlier than the first token read
  by the function that gives them, and deferred checks end at the latest at the current token
  (at the next one right after a name).
* **C88** from the files of C86 read one after the other, by induction on the number of sources; the
  deferred checks ask for names only, and lookups do not depend on the order of definitions.
* **C89** by a simulation of two parsers whose tokens agree but for the names (`ParseRename.v`), as C84
  is. An integer used as a map key becomes an identifier named by its decimal form, which is why `Naming`
  keeps strings that do not begin like a name.
* **C90** by induction on trees: `visit` gives the same on a tree without positions and comments. Layout
  then follows from C84 and comments in the document fragment from C16.
* **C91** the REPL's loop by induction on the lines; the file by induction with C86, where the rest of
  the lines is moved to the environment of the joined file (`clean_bare`, from C84).
* **C92** `Rfc.v` states the grammar of RFC 8610 (appendix B) as inductive predicates on bytes; it is a
  specification written from the RFC, not from /repo, and is read as a context-free grammar. Documents of
  C16 within that grammar are derived lexeme by lexeme. Membership of single texts is shown by a sound
  recogniser, non-membership by two invariants of all texts (`RfcProofs.v`).

* **C93** an inverse of `tree` up to `forget`, by induction on documents; rules with the comments before
  them in turn. Writing the tree again is C16 for the document so obtained.
* **C94** the levels of RFC 8610 (type, type1, type2, group, entry) are types of their own, so that a
  structure of the RFC cannot have an operator in the wrong place (`Props_Prec.v`, written from the RFC).
  `rfcReading` groups the lexemes of a document as the RFC does, `treeReading` as the nodes of the tree do,
  with parentheses where the RFC needs them. Both by induction; that more than the lexemes are needed by
  counting parentheses.
* **C95** the file of blocks parses as in C88; that the deferred checks of a block only look up its own
  identifiers by induction on the grammar; the generator by C36 and C90.
* **C96** reading has one result: the visible fields are determined by the types, and the others are zero.
  In the structs of C82 every field but `_` is visible, by induction on the fields, embedded structs
  included. So writing and reading are inverse, and what is read is what C82 says of the value it gives.
* **C97** comment-only files are documents of C16 without rules; the rest by induction on the documents.
* **C98** by running the loops forward: directories can be made because no file is on the way, files because
  their directory exists; what a build leaves does not touch the sources and outputs of the others.
* **C99** by one invariant of all functions that read values: of the tokens they pass none is a sign between
  a name and a value, and where they succeed they do not stand on one. The rule loop then has four places
  where it can stand between the name before the sign and the next name; the same reading of the loop shows
  how names without signs lose the names after them.
* **C100** by an amortised count: every token pays for two nodes and for one diagnostic or check, and the invariant
  of the functions that read values says how much of what has been paid is used up. A prefix `*` makes two nodes of
  its own, and with the upper bound that is read twice (C64) one more, which is the reason for the factor two.
- **C101** (`ParseEnv.v`, `Props_EnvUse.v`): what the environment changes in a parse. `ParseEnv.v` shows that the functions below `parseRule` neither look at environment and diagnostics nor change them, hence that for each source there are a list of events (`Told`, `Defines`), rules and tasks with which `ParseFile` is `outcome` in every environment (`source_events`). `C101_same` (tree and other diagnostics), `C101_ends`, `C101_bound`, `C101_missing`, `C101_existing`, `C101_larger`; `C101_socket_refuted` (a name beginning with a dollar sign that is newly bound can spoil an accepted source) and `C101_ends_refuted` (the crash of C65 can disappear in a larger environment).
- **C102** (`ParseLits.v`, `Props_Literals.v`): values of literals and texts of comments do not matter. `ParseLits.v` runs two parsers side by side over tokens that may differ in these (`Similar`) and compares trees under `erase`; `Props_Literals.v` says which literals may be exchanged (`MayBe`: integers below 2^63, readable numbers that read alike after the sign of a tag, any text, any comment) and lifts this to sources (`Reworded`): `C102_literals`, `C102_accepted`; `C102_large_refuted` (an integer of 2^63 is not accepted where 1 is).
- **C103** (`ParseMove.v`, `Props_Move.v`): blank lines before a source move everything by as much. `ParseMove.v` defines how trees, diagnostics and definitions are moved (`move`, `mvD`, `mvDef`; positions whose line is 0 were never set and stay) and shows that a parser over moved tokens makes the moved results; `Props_Move.v` shows that blank lines move the tokens. `C103_moved`, `C103_diagnostics`; `C103_indent_refuted` (blanks on the first line move columns).
- **C104** (`ParseNotes.v`, `Props_Notes.v`): the texts of comments. `ParseNotes.v` runs two parsers over tokens that differ only in the literals of comments (after `ParseLits.v`, but all other literals are kept) and shows on the way that no comment stands inside the value of a rule, where the generator would write its text; `Props_Notes.v` lifts this to sources (`Renoted`) and to `generate` with C90's `drawn_file` and `drawn_run`. `C104_parsed`, `C104_generated`.
- **C105** (`Props_Project.v`): a whole project reformatted. `sameProject` relates file systems that differ only in `*.cddl` files, by C104's `Renoted`; each operation of the file system in `Cli.v` is shown to respect it (output names end in `.go`, so a source is never an output, and a configuration file is never a source), and so does each level of the command. `C105_generate`, `C105_process`.
- **C106** (`Props_Again.v`): the whole command run twice (C60 is about one file). `Inv` relates a state of the first run, the first run's result and the state of the second run at the same point: same kinds of entries as the result, sources as in the result, every other entry as in the result or as in the first run. `C106_again`; `C106_source_refuted` and `C106_config_refuted` show that neither condition can be dropped.
- **C107** (`Props_Unread.v`): noninterference. Two runs are followed side by side; `alike` says that an entry is equal in both, or a file that is never read and still as it was at the start. Opening an output truncates it, which makes it equal. `C107_reads`, `C107_process`.
- **C108** (`Props_Header.v`): comment lines at the top. The lexer behind the header is the lexer of the source, moved (`move_scans` of C103, now for any text that ends in a newline); the comment loop takes the whole header, and the file loop goes on in a moved state (`fileLoop_mov`). `C108_header`, `C108_generated`; `C108_early_refuted` is the exception.
- **C109** (`Shared.v`, `Props_Shared.v`): the lexers of C12 with the memory they read from: a lexer keeps the slice `append` returned and reads through it at each call. Invariant `Inv`: the lexer seen through the memory is the lexer alone. `C109_apart`; `C109_adjacent_refuted`, `C109_capacity_refuted` show that the condition is needed and that capacity decides.
- **C110** (`Props_Twice.v`): `parseFile` from the state it left. The first call ends at EOF and its lexer has scanned the source to the end (`ended`, with the frame of ParseFrame.v), so its recorded errors are all of the source's (`errors_end`, from C05). `C110_again`.
- **C111** (`ParseMap.v`, `Props_Crlf.v`): line endings. The shift of an offset is a function of the position (one byte for each line before), so the second parse is the image of the first under one map of positions and comment texts (`parseSource_mov` of `ParseMap`, made after C103 and C104); the lexer side uses the lexical grammar of C66 and `lexed_apart` of C84 (`crlf_scans`). `C111_line_ends`, `C111_reports`, `C111_generated` (through C104); `C111_open_refuted` shows that open text literals must be excluded.
- **C112** (`ParseMap.v`, `Props_Stray.v`): a stray character at the start, such as a byte order mark. `ParseMap` carries one parse to another under any map of positions that keeps lines, any map of comment texts, and diagnostics already given; C111 and C112 are two instances of it. `C112_stray` (`stray_first` relates the lexers, `stray_step` is the one failing rule), `C112_refused`, `C112_generate`, `C112_beyond_ascii`, `C112_mark`; `C112_early_refuted` shows that the two exceptions of the statement occur.
- **C113** (`HeapWalk.v`, `Props_Modify.v`): visitors that modify the tree. `TreeOf W H h x t` says that `t` is what Walk reads from `x` without the places `W` and slices `H`, which the visitor may change (`spares`). `C113_links` (by `still`, a mutual induction on the tree), `C113_calls`, `C113_preorder` (`read_tree`: the tree `Rep` speaks of is the one Walk reads), `C113_opened`, `C113_later`; `C113_unmodified` relates `hwalk` to `walk` through the representation `Rep`, which every tree has (`C113_every`); `C113_endless_refuted` shows a visitor with which Walk does not end.
- **C114** (`SharedEnv.v`, `Props_SharedEnv.v`): parsers that share an environment. `C114_in_turn`, `C114_grows` (from `loop_events` of `ParseEnv.v`), `C114_again` and `C114_recheck` (from the parts of C110 and `missing_later`), `C114_file` (from C91); `C114_order_refuted` shows that the order of the calls matters.
- **C115** (`Props_InTheWay.v`): an output directory that cannot be there. `C115_build` (by induction on the entries of the source directory, with `obstructed_there` for the call of Stat), `C115_command`, `C115_refused` (`mkdir_refused`, an induction on the path).

## Findings

What the model shows about the code, with the property that proves it.

* Most generated files do not compile (C78): a literal rule gets a method on a variable, every
  size constraint passes the undeclared variable `self`, the receiver of a rule whose name contains
  `-`, `.`, `$` or `@` is no identifier, `null` becomes the type `nil`, and an array or group with
  an unnamed occurrence embeds a slice.
* Generated types that compile may still lose data (C82, C83): array items without a key are
  dropped, arrays named within arrays are flattened, fields of groups can be hidden, fields of
  sockets are unexported, and the `omitempty` of optional members has no effect in arrays.
* Generated types read null as zero and arrays of numbers as byte strings, and refuse data that leave out
  an optional member (C96).
* Comments separated by empty lines form one comment group, against the comment in `ast/comment.go`; `CDDL.String`
  shows addresses in place of the values of rules and position 0 for every rule (C97).
* Layout matters only for comments (C84): one on the line of the token before it becomes part of
  that rule or entry, one on a line of its own an entry of the file.
* A line appended to a source can change its last rule (C85): rules have no end mark. Of accepted
  sources one after the other the second can lose its first token (C86), since the token after a
  comment on the line of a rule is skipped.
* The parser's language is neither within that of RFC 8610 nor the other way round (C92): it refuses
  the prelude's `any`, negative numbers, byte strings, generics, texts and types as keys, cuts, most
  controls and more, and accepts open strings, open tags, tabs, comments without newline, commas
  between rules and files without rules.
* The tree does not keep whether a rule was `=`, `/=` or `//=`, whether a member had `:` or `=>`, nor the
  left operands of comparisons (C93).
* Operators have no precedence (C94): in `uint .size 2 / tstr` the size is `2 / tstr`, in `~a / b` the choice
  is unwrapped, and `//` in a map takes one entry on either side. RFC 8610 reads these otherwise.
* `lexer.next` does not advance over U+FFFD or invalid UTF-8, so such sources loop for
  ever (C01, C47).
* A double quote directly before a newline or the end of the source crashes `Scan` (C10).
  Other unterminated strings lose their last byte and are only recorded as lexer errors,
  which `ParseFile` ignores after the second token (C04, C11, C28). A lexer error in the
  first two tokens makes `ParseFile` return `nil, nil` (C27); `generate` then crashes
  after it has emptied the output (C57), as does the REPL after `:pv` (C50).
* `NewLexer` overwrites the byte after the caller's slice when there is capacity (C12).
* The keyword table contains `INTERNAL_MARKER_numeric_end` and `text_literal` (C08).
* Lexing of malformed numbers (C66): `1.a` is the float `1` and the name `.a`; `1.2.3` is
  one float; `0x` is an integer; names may contain dots, so `a..z` is one name; a dot before
  a non-ASCII letter is a name of one dot.
* `/` and `//` have one precedence in effect and both build `TypeChoice` (C23).
* Groups and arrays drop entries that are not group entries, for example the `~person`
  of `examples/parser/main.go` (C24).
* Comparators lose their left operand (C25); a duplicate of such a rule crashes the
  parser when it reports it (C15).
* A same-line comment after a rule swallows the next token (C29). A comment between two elements
  without a comma separates them: deleting it can change the generated file (C90).
* Crashes of the parser: `.regexp` after anything but tstr, `.bits` with a failing
  operand, `*` after a prefix occurrence or a tag number, duplicates of comparator and
  empty-range rules (C15 gives a condition on sources that excludes all crashes, and shows
  by witnesses that no part of it can be left out).
* `expectPeek`'s error is dropped, so a tag may lack its closing parenthesis; the upper
  bound of `1*2 t` is re-read as the item (C64), as happens in `examples/parser/main.go`.
* Positions: the key of a number-keyed member is placed at the colon (C68); the widths End
  adds disagree with the lexemes for nil, bstr, float16, true, texts, comments and non-decimal
  numerals (C67); End crashes on occurrences without upper bound and tags without item, and
  is offset -1 for empty lists (C69); Start crashes on comparators (C68).
* `Walk` panics on boolean literals, uint types, enumerations, bits, comment groups (C34).
* The generator panics on maps, choices, tags, floats, bstr and more (C38); it drops
  size checks nested in groups but keeps their import (C53); one import per check (C39);
  checks mention an unbound `self` (C52); text literals lose their quotes and get methods
  on variables (C54); `String` is not repeatable (C55); no case conversion is valid (C56).
* A rule without a value loses all rules after it that are nothing but the name of another rule, up to the next
  rule with a value of another kind (C99).
* An output of one build can be in the way of the output directory of another (C98).
* A parser called again after other parsers have defined the names it missed still returns the
  diagnostics of the first call that say they are missing (C114).
* `Walk` has no guard against visitors that change the tree: one that makes a node a part of
  itself is called forever (C113).
* A byte order mark makes every source fail: it is one illegal token, reported as "expected
  IDENT" at 1:1, and the output file is emptied (C112).
* An unterminated text literal means something else with carriage returns before newlines: it
  keeps its last byte, and an empty one does not crash the parser (C111, C10).
* `ParseFile` cannot be called twice: deferred checks are run again, so undefined names are
  reported once per call, and an unterminated string makes the second call return nil, nil (C110).
* `NewLexer` on a piece of a buffer makes the next byte of the buffer a space; if that byte is
  the start of a piece another lexer reads, its tokens are wrong (C109).
* A comment at the top of a file decides whether a bad string in its first tokens is reported
  or swallowed: without it the parse ends with neither tree nor diagnostics (C108, C57).
* `generate` can break its own next run: an output directory named `*.cddl` inside a source
  directory is then read as a source, and an output `cddlc.*.go` in the working directory is
  taken for the configuration (C106).
* `CheckSize` looks at the type only and crashes on nil (C51).
* `generate` truncates its output before parsing (C42); the default configuration writes
  files without a package name (C59); a null build crashes it (C61); the `parse` command
  succeeds on sources with errors (C62); the first `cddlc.*` file wins even if it is not
  a configuration (C44).
* Of the trees `parse` prints, those with an unfinished text literal may lose bytes (C73); a
  source nested too deeply (10000 levels of JSON) makes `parse` fail after parsing (C73).
* Configurations: members are matched in any case, unknown ones and all text after the value
  are ignored (C74).
* `qrepl` exits with status 1 at the end of its input and at a line of 65536 bytes or more;
  only `:exit` gives status 0 (C70, C72).

## Seeded bugs

`seeded/LOG.jsonl` has one line per deliberately wrong edit of the model, tried in a
scratch copy: what was edited and how, which claim became false, which statements no
longer prove (`theorems_failed`), which theorems of that claim rest on them
(`depending_on_those`), which were not tried because a file before them failed
(`not_reached`), which held (`still_proved`), and which theorems were added or tightened
because of the edit (`theorems_tightened`, `note`). A failing proof is admitted in the
scratch copy and the build repeated until the claim is settled.
