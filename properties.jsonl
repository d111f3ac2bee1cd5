{"id": "C01", "title": "Lexing reaches EOF exactly on decodable sources", "statement": "For every byte source, calling Scan repeatedly on NewLexer(src) reaches an EOF token (or crashes on the malformed empty string of C10) after at most len(src)+1 calls if UTF-8 decoding of src never produces U+FFFD; if decoding does produce U+FFFD anywhere, no sequence of Scan calls ever returns EOF (the lexer loops or repeats a token for ever).", "quantifier": "every byte string, every number of Scan calls", "why_tests_cant": "an infinite loop cannot be observed by a finite test, and the claim ranges over all byte strings", "anchors": ["lexer/lexer.go:NewLexer", "lexer/lexer.go:Scan", "lexer/lexer.go:next"]}
{"id": "C02", "title": "Token positions are exact", "statement": "Every token returned by Scan on a decodable source carries Offset equal to the byte index where its text starts, Line equal to one plus the number of newline bytes before that index, and Column equal to the distance in bytes from the last newline before it (or from -1 on the first line).", "quantifier": "every decodable byte source, every token", "why_tests_cant": "depends on every layout of newlines, comments and strings", "anchors": ["lexer/lexer.go:Scan", "lexer/lexer.go:skipWhitespace", "lexer/lexer.go:addLineOffset", "token/position.go:Position"]}
{"id": "C03", "title": "Tokens tile the source", "statement": "The texts of the tokens returned before EOF are non-empty, disjoint, in source order, and the bytes between consecutive tokens (and before the first and after the last) are only spaces, tabs, carriage returns and newlines: no source byte is skipped or read twice.", "quantifier": "every decodable byte source", "why_tests_cant": "every combination of adjacent tokens", "anchors": ["lexer/lexer.go:Scan"]}
{"id": "C04", "title": "Literals reproduce the source text", "statement": "The literal returned with a token is the token's source text, except that a comment drops its leading semicolon, a text literal drops its two quotes (an unterminated one drops the opening quote and its last byte), and EOF has the empty literal.", "quantifier": "every decodable byte source, every token", "why_tests_cant": "all token texts, all Unicode characters", "anchors": ["lexer/lexer.go:Scan", "lexer/lexer.go:scanComment", "lexer/lexer.go:scanString", "lexer/lexer.go:scanNumber"]}
{"id": "C05", "title": "EOF is sticky and sits at the end of the source", "statement": "Once Scan has returned EOF every further call returns EOF with the same position, empty literal and no further lexer errors, and that position's Offset is len(src).", "quantifier": "every source that reaches EOF, every number of further calls", "why_tests_cant": "unbounded number of further calls", "anchors": ["lexer/lexer.go:Scan", "lexer/lexer.go:next"]}
{"id": "C06", "title": "Space separated lexemes lex back to themselves", "statement": "For every sequence of valid lexemes (identifiers, keywords, numbers, quoted text, punctuation, control operators), lexing their concatenation separated by single spaces yields exactly these tokens and literals in order, at the offsets of the concatenation, then EOF, with no lexer error.", "quantifier": "every finite sequence of valid lexemes of any length", "why_tests_cant": "the fuzz test in lexer_test.go samples ten tokens at a time", "anchors": ["lexer/lexer.go:Scan", "lexer/lexer_test.go:TestLexerFuzz"]}
{"id": "C07", "title": "Identifiers are maximal and classified by the keyword table", "statement": "A token that starts with a letter, @, _ or $ extends over exactly the longest run of identifier characters; its kind is the keyword's token if the text is a keyword longer than two bytes, else IDENT.", "quantifier": "every decodable source and token start", "why_tests_cant": "all identifier spellings and followers", "anchors": ["lexer/lexer.go:scanIdentifier", "lexer/lexer.go:isIdentifierBodyChar", "token/token.go:Lookup"]}
{"id": "C08", "title": "Keyword lookup inverts token names", "statement": "Lookup(t.String()) = t for every type keyword and control operator token t, and Lookup(s) = IDENT for every string s that is not the name of one of these tokens; no two tokens share a name.", "quantifier": "every string, every token", "why_tests_cant": "ranges over all strings", "anchors": ["token/token.go:Lookup", "token/token.go:String", "token/token.go:init"]}
{"id": "C09", "title": "Number tokens cover whole numerals", "statement": "A maximal decimal digit run not followed by a dot lexes to one INT token with exactly these digits; digits, a dot and digits (not followed by a further dot or digit) lex to one FLOAT token; 0x, 0b and 0o prefixes followed by digits of the base lex to one INT token with the whole text; a number directly followed by '..' leaves the range operator intact.", "quantifier": "every numeral of any length and every admissible follower", "why_tests_cant": "all digit strings", "anchors": ["lexer/lexer.go:scanNumber", "lexer/lexer.go:scanHexDigits", "lexer/lexer.go:scanBinaryDigits", "lexer/lexer.go:scanOctalDigits"]}
{"id": "C10", "title": "Scan crashes exactly on an empty unterminated string", "statement": "On a decodable source a call to Scan panics if and only if the next token starts with a double quote that is immediately followed by a newline or by the end of the source; every other call returns normally.", "quantifier": "every decodable source, every reachable lexer state", "why_tests_cant": "all states reachable by any number of scans", "anchors": ["lexer/lexer.go:scanString"]}
{"id": "C11", "title": "Unterminated strings are recorded once each", "statement": "ErrCount always equals len(Errors), and each Scan adds exactly one lexer error when it returns a text literal that runs into a newline or the end of the source, and none otherwise.", "quantifier": "every decodable source and every number of scans", "why_tests_cant": "all histories of scans", "anchors": ["lexer/lexer.go:error", "lexer/lexer.go:scanString"]}
{"id": "C12", "title": "NewLexer's effect on the caller's buffer", "statement": "NewLexer never changes any of the len(src) bytes the caller passed, but if the slice has spare capacity it overwrites exactly the one byte after the slice in the caller's backing array with a space; with no spare capacity the caller's memory is untouched.", "quantifier": "every backing array, slice offset, length and capacity", "why_tests_cant": "all slice shapes and aliases", "anchors": ["lexer/lexer.go:NewLexer", "cmd/cddlc/commands/repl.go:Repl"]}
{"id": "C13", "title": "Token classes and precedences", "statement": "IsControlOp holds exactly for the twenty dotted operators, IsNumeric exactly for the seven numeric types, binding powers follow the documented table, and IsLiteral tells a numeral from the type keyword that shares its token.", "quantifier": "every token and every literal string", "why_tests_cant": "ranges over all literal strings", "anchors": ["token/token.go:IsControlOp", "token/token.go:IsNumeric", "token/token.go:Precedence", "token/token.go:IsLiteral"]}
{"id": "C14", "title": "ParseFile terminates", "statement": "For every decodable source (one that lexes to EOF, C01), NewParser followed by ParseFile finishes: it returns or panics, it never loops or recurses without bound.", "quantifier": "every byte source", "why_tests_cant": "non-termination is not observable by tests; all nestings", "anchors": ["parser/parser.go:ParseFile", "parser/parser.go:parseEntry", "parser/parser.go:parseGroup", "parser/parser.go:parseMap", "parser/parser.go:parseArray"]}
{"id": "C15", "title": "ParseFile does not crash outside the known crash shapes", "statement": "ParseFile returns normally on every decodable source without an empty unterminated string in which .regexp stands only after tstr/text, .bits is followed by a name that is not itself followed by an operator (a comma is fine), * and + stand only where an operand starts or after a one-token operand that is not a tag number, and no rule name is defined twice (or no comparison or range operator occurs). In particular it returns on every such source with none of the operators .regexp, .bits, * and + and no repeated name. Each exclusion is needed: a crashing source exists for each.", "quantifier": "every source in the stated class", "why_tests_cant": "all inputs", "anchors": ["parser/parser.go:parseRegexp", "parser/parser.go:parseBits", "parser/parser.go:parseOccurrence", "parser/parser.go:parseRule", "parser/parser.go:wrapBadNode"]}
{"id": "C16", "title": "Well formed documents parse to their tree", "statement": "For every abstract CDDL document of the fragment defined in Doc.v (rules with =, /= and //=, comments on their own lines, maps, arrays, groups, members with name or number keys and optional same-line comments, optional/unwrap/enumeration prefixes, occurrences with and without lower bound, tags, choices, comparisons, .size, .regexp, .bits, numeric ranges, all keyword types and literals), of any size and nesting, and for every way of laying it out, ParseFile reports nothing, returns exactly the syntax tree of the document up to source positions, and adds exactly its definitions to the environment. In particular this holds for the printed document.", "quantifier": "every document of the supported fragment", "why_tests_cant": "unbounded documents", "anchors": ["parser/parser.go:ParseFile", "lexer/lexer.go:Scan"]}
{"id": "C17", "title": "Accepted input means what the grammar says", "statement": "Whenever the parser accepts an entry without a diagnostic, the consumed tokens are the flattening of a concrete syntax tree of the accepted grammar and the returned node is that tree's meaning, with exact source positions; conversely every such tree is accepted with that node.", "quantifier": "every token stream", "why_tests_cant": "all token streams", "anchors": ["parser/parser.go:parseEntry"]}
{"id": "C18", "title": "References resolve when no diagnostic is reported", "statement": "If ParseFile returns no diagnostics then every identifier in value position of the returned tree that does not start with $ is bound in the environment, hence defined by an = rule of the file or present beforehand.", "quantifier": "every source and initial environment", "why_tests_cant": "all programs", "anchors": ["parser/parser.go:parseNamedIdentifier", "parser/parser.go:ParseFile"]}
{"id": "C19", "title": "Duplicate definitions are reported", "statement": "If ParseFile returns no diagnostics then the names of all = rules of the file are pairwise distinct and none was already in the supplied environment.", "quantifier": "every source and initial environment", "why_tests_cant": "all programs", "anchors": ["parser/parser.go:parseRule", "environment/environment.go:Add"]}
{"id": "C20", "title": "The first definition wins and nothing is ever unbound", "statement": "ParseFile never removes or changes a binding of the environment it is given, and a name newly bound is bound to the value of the first accepted = rule for it.", "quantifier": "every source, every initial environment", "why_tests_cant": "all histories", "anchors": ["parser/parser.go:parseRule", "environment/environment.go:Add"]}
{"id": "C21", "title": "Integer literals have the numeral's value", "statement": "Every integer literal node of a returned tree carries the exact value of the numeral in the source (decimal, 0x, 0o, 0b, or octal with a leading zero) and lies in [0, 2^63); a numeral outside that range is reported and not truncated or wrapped.", "quantifier": "every numeral of any length", "why_tests_cant": "all numerals", "anchors": ["parser/parser.go:parseIntegerLiteral", "parser/parser.go:parseUintLiteral"]}
{"id": "C22", "title": "Range bounds have one kind", "statement": "If ParseFile reports nothing, a range whose lower bound is an integer (float) literal and whose upper bound is an identifier has that identifier bound to an integer (float) literal, and a literal upper bound is of the same kind as the lower one.", "quantifier": "every source and environment", "why_tests_cant": "all programs", "anchors": ["parser/parser.go:parseIntBound", "parser/parser.go:parseFloatBound", "parser/parser.go:parseIdentBound"]}
{"id": "C23", "title": "Choice operators nest to the right with one precedence", "statement": "A chain of operands joined by / and // parses to the right nested choice tree in source order, whatever the mixture of the two operators (so // does not bind weaker than /).", "quantifier": "every chain of any length and mixture", "why_tests_cant": "unbounded chains", "anchors": ["parser/parser.go:parseTypeChoice", "parser/parser.go:parseGroupChoice", "token/token.go:Precedence"]}
{"id": "C24", "title": "Groups and arrays keep exactly the group-entry nodes", "statement": "Parsing a group or array yields the sub-list, in source order, of its parsed entries that are group entries (entries, identifiers, nested groups, ranges, enumerations, optionals, occurrences, comments); other entries (plain types, literals, choices, maps, tags) are dropped without a diagnostic. Maps keep every entry.", "quantifier": "every entry list", "why_tests_cant": "unbounded lists", "anchors": ["parser/parser.go:parseGroup", "parser/parser.go:parseArray", "parser/parser.go:parseMap", "ast/group.go:GroupEntry"]}
{"id": "C25", "title": "Comparator nodes", "statement": "Every accepted .lt/.le/.gt/.ge/.eq/.ne node keeps its operator and right operand but holds a nil left operand, so asking it for its start position panics.", "quantifier": "every accepted comparator expression", "why_tests_cant": "all operands", "anchors": ["parser/parser.go:parseComparatorOp", "ast/control_comparator.go"]}
{"id": "C26", "title": "Diagnostics point into the source and are all printed", "statement": "Every diagnostic returned by ParseFile starts on a line between 1 and the number of lines of the source, so the command line error printer never crashes and prints exactly one report per diagnostic, in order.", "quantifier": "every decodable source that ParseFile returns on", "why_tests_cant": "all malformed programs", "anchors": ["cmd/cddlc/commands.go:errorStringer", "cmd/cddlc/commands/generate.go:errorStringer", "parser/parser.go:error"]}
{"id": "C27", "title": "Result shape of ParseFile", "statement": "ParseFile returns a nil tree and nil errors if and only if the first two tokens already produced a lexer error; otherwise it returns a tree, and the returned error list is nil exactly when nothing was reported.", "quantifier": "every source", "why_tests_cant": "all programs", "anchors": ["parser/parser.go:ParseFile", "parser/diagnostic.go:Collect"]}
{"id": "C28", "title": "Later lexer errors are never reported by the parser", "statement": "A lexer error in the third or a later token is not turned into a diagnostic: the parser's diagnostics are a function of the token stream only.", "quantifier": "every token stream", "why_tests_cant": "all programs", "anchors": ["parser/parser.go:ParseFile", "lexer/lexer.go:error"]}
{"id": "C29", "title": "Every top level rule is kept unless a trailing comment precedes it", "statement": "For every sequence of well formed rules none of which is followed by a same-line comment, the tree lists all of them in source order; after a rule with a same-line trailing comment the parser discards the next token.", "quantifier": "every sequence of rules", "why_tests_cant": "unbounded files", "anchors": ["parser/parser.go:parseRule", "parser/parser.go:ParseFile"]}
{"id": "C30", "title": "Node positions are token positions", "statement": "Every position stored in a node of a returned tree is the position of a token of the source, or the zero position, or such a position moved right by the fixed width of a literal.", "quantifier": "every source", "why_tests_cant": "all programs", "anchors": ["parser/parser.go:parseEntry"]}
{"id": "C31", "title": "Environment behaves as a write-once map", "statement": "After any sequence of Add calls, Exists and Get answer for each name the first value added for it, and Add returns ErrSymbolExists exactly for names added before.", "quantifier": "every history of Add/Get/Exists calls", "why_tests_cant": "all histories", "anchors": ["environment/environment.go"]}
{"id": "C32", "title": "REPL sessions accumulate definitions", "statement": "Feeding any sequence of lines to parsers sharing one environment leaves each name bound to its first accepted definition over the whole session, and never removes one.", "quantifier": "every sequence of input lines", "why_tests_cant": "all sessions", "anchors": ["cmd/cddlc/commands/repl.go:Repl", "parser/parser.go:WithEnv"]}
{"id": "C33", "title": "Walk visits in pre-order", "statement": "On a tree whose nodes Walk knows, a visitor that never prunes sees each node exactly once, parents before children and children left to right, and a Visit(nil) call closes each node.", "quantifier": "every tree", "why_tests_cant": "unbounded trees", "anchors": ["ast/astutils/walk.go:Walk"]}
{"id": "C34", "title": "Walk crashes exactly on unknown node kinds", "statement": "Walk with a never-pruning visitor panics if and only if the tree contains a reachable boolean literal, uint type, enumeration, bits, comment group or bad node.", "quantifier": "every tree", "why_tests_cant": "unbounded trees", "anchors": ["ast/astutils/walk.go:Walk"]}
{"id": "C35", "title": "Pruning skips exactly the subtree", "statement": "If the visitor returns nil for a node, none of its descendants is visited and no closing Visit(nil) is made for it, and the rest of the traversal is unchanged.", "quantifier": "every tree and visitor", "why_tests_cant": "all visitors", "anchors": ["ast/astutils/walk.go:Walk"]}
{"id": "C36", "title": "One declaration and one Valid method per rule", "statement": "When code generation does not panic, the generated file has, for each rule of the tree in order and nothing else, one declaration named after the rule followed by one Valid method whose receiver is that name; comments generate nothing; literals become var, everything else type.", "quantifier": "every tree", "why_tests_cant": "unbounded trees", "anchors": ["transforms/codegen/golang/gen_grouped.go:Visit", "transforms/codegen/golang/gen_grouped.go:bundleValidators"]}
{"id": "C37", "title": "Struct fields follow group entries", "statement": "A group becomes a struct with exactly one field per entry, in order, with the omitempty tag exactly on optional entries; an array's struct has one extra leading toarray marker field.", "quantifier": "every group or array", "why_tests_cant": "unbounded lists", "anchors": ["transforms/codegen/golang/gen_grouped.go:transpileGroupLike", "transforms/codegen/golang/gen_grouped.go:transpileArray"]}
{"id": "C38", "title": "Code generation crashes exactly on unsupported nodes", "statement": "Visit panics if and only if some rule is outside the supported fragment, which is described by a separate definition on trees (TypeIs/EntryIs: base types without bstr, nint and floats, literals other than unsigned ones, names with a Go spelling, groups and arrays of members, occurrences, and .size with an integer literal on tstr, bytes or uint); otherwise it returns.", "quantifier": "every tree", "why_tests_cant": "unbounded trees", "anchors": ["transforms/codegen/golang/gen_grouped.go:transpileNode", "transforms/codegen/golang/gen_operator.go"]}
{"id": "C39", "title": "Validator imports", "statement": "The generated file imports the validators package once per .size operator met, so zero imports if and only if there is none, and two or more .size operators give a file with duplicate imports (with a go/ast whose SortImports rebuilds File.Imports there is never an import).", "quantifier": "every tree", "why_tests_cant": "unbounded trees", "anchors": ["transforms/codegen/golang/gen.go:addImport", "transforms/codegen/golang/gen_operator.go:transformSizeOp"]}
{"id": "C40", "title": "Validators of a rule", "statement": "The Valid method of a rule contains a CheckSize call exactly when the rule's value is directly a .size operator, with that size; constraints nested in groups and arrays generate no call.", "quantifier": "every tree", "why_tests_cant": "unbounded trees", "anchors": ["transforms/codegen/golang/gen_grouped.go:bundleValidators", "transforms/codegen/golang/gen.go:Embed"]}
{"id": "C41", "title": "Range validators", "statement": "InInclusiveRange and InExclusiveRange decide the closed and open interval for all integers, and return false whenever an operand is NaN; comparisons are consistent with each other.", "quantifier": "every triple of integers or floats", "why_tests_cant": "infinite domain, NaN", "anchors": ["runtime/validators/validators.go"]}
{"id": "C42", "title": "generate truncates the output before it knows the source parses", "statement": "generateFile leaves the output file empty when the source has diagnostics (whatever it held before), holds the header (the program's base name and the arguments in a comment) and the generated text when it succeeds, and touches no other file; a failing file stops the build and later files are not processed.", "quantifier": "every file system state and list of source files", "why_tests_cant": "all histories and contents", "anchors": ["cmd/cddlc/commands/generate.go:generateFile", "cmd/cddlc/commands/generate.go:GenerateCmd"]}
{"id": "C43", "title": "init never overwrites", "statement": "InitCmd fails and changes nothing if cddlc.json exists, otherwise it creates exactly that file, with the text of the default configuration.", "quantifier": "every file system state", "why_tests_cant": "all states", "anchors": ["cmd/cddlc/commands/init.go:getFileHandle", "cmd/cddlc/commands/init.go:InitCmd"]}
{"id": "C44", "title": "Configuration selection", "statement": "generate uses the first file in sorted order matching cddlc.* in the directory, succeeds only if its name is cddlc.json or cddlc.yaml, and falls back to the default build only if there is no match at all.", "quantifier": "every directory listing", "why_tests_cant": "all directories", "anchors": ["cmd/cddlc/commands/generate.go:loadConfigFromDir", "config/config.go:LoadConfig"]}
{"id": "C45", "title": "lex command counts illegal characters", "statement": "The lex command prints one line per token up to and including EOF and fails with the exact number of ILLEGAL tokens if there are any.", "quantifier": "every decodable source", "why_tests_cant": "all sources", "anchors": ["cmd/cddlc/commands.go:LexerCmd"]}
{"id": "C46", "title": "Integer numerals round trip", "statement": "Formatting any int64 in decimal and parsing the text gives the number back, and the parser of unsigned numerals accepts exactly the well formed numerals below 2^64.", "quantifier": "every 64-bit integer, every byte string", "why_tests_cant": "2^64 values", "anchors": ["parser/parser.go:parseUintLiteral", "transforms/codegen/golang/gen_literals.go:transpileIntegerLiteral"]}
{"id": "C47", "title": "Undecodable sources never yield a tree", "statement": "If the source is not valid UTF-8 (or contains U+FFFD), parsing it does not return a tree: the only ways it can return are a nil tree, and otherwise it panics or never returns.", "quantifier": "every byte string and environment", "why_tests_cant": "non-termination, all sources", "anchors": ["lexer/lexer.go:next", "parser/parser.go:ParseFile"]}
{"id": "C48", "title": "The accepted language is unambiguous", "statement": "A token sequence has at most one parse: the tree, the set of deferred checks and the added definitions are functions of the tokens.", "quantifier": "every token sequence", "why_tests_cant": "all programs", "anchors": ["parser/parser.go:parseEntry", "parser/parser.go:ParseFile"]}
{"id": "C49", "title": "The tree printer never crashes on parsed definitions", "statement": "astutils.Format crashes exactly when it reaches, through choices and enumerations, a nil pointer of a type it has a formatting method for; the REPL command :tree never crashes on any name after any sequence of lines.", "quantifier": "every tree; every REPL session of decodable lines", "why_tests_cant": "Trees and sessions are unbounded and the crash needs a typed nil pointer deep inside a tree, which parser tests do not build.", "anchors": ["ast/astutils/print.go:format", "cmd/cddlc/commands/repl.go:Repl"]}
{"id": "C50", "title": "Verbose REPL crashes on early lexer errors", "statement": "With :pv switched on, a line for which ParseFile returns no tree (a lexer error in its first two tokens) ends the REPL with a nil dereference; with it off the same line has no effect. The flag is flipped by :pv and by nothing else.", "quantifier": "every line and session state", "why_tests_cant": "The REPL reads standard input and exits the process, and the crash depends on the interplay of the verbose flag with the parser's nil result.", "anchors": ["cmd/cddlc/commands/repl.go:printcddlShort", "parser/parser.go:ParseFile"]}
{"id": "C51", "title": "CheckSize looks at the type only", "statement": "validators.CheckSize gives the same answer for any two values of the same Go type, whatever they contain, and crashes exactly on a nil interface; its documented reading (the value's size in bytes is below the bound) is false in both directions.", "quantifier": "every value and every bound", "why_tests_cant": "A test compares a few values with a few bounds; independence of the content is a statement about all pairs of values.", "anchors": ["runtime/validators/validators.go:CheckSize"]}
{"id": "C52", "title": "Generated checks name a variable that is not bound", "statement": "Every CheckSize call in a generated Valid method passes the identifier self, while the method's receiver is the lower-cased rule name; the call refers to the receiver only for a rule whose lower-cased name is self.", "quantifier": "every tree", "why_tests_cant": "A test reads one generated file; the mismatch is a fact about every rule name and every constraint.", "anchors": ["transforms/codegen/golang/gen_operator.go:transformSizeOp", "transforms/codegen/golang/gen_grouped.go:bundleValidators"]}
{"id": "C53", "title": "Nested size constraints give an unused import", "statement": "If no rule is itself a .size constraint but one is nested in a group, array or occurrence, the generated file imports the validators package and contains no call to it.", "quantifier": "every tree", "why_tests_cant": "unbounded trees and positions of the constraint", "anchors": ["transforms/codegen/golang/gen_operator.go:transformSizeOp", "transforms/codegen/golang/gen_grouped.go:transpileGroupLike"]}
{"id": "C54", "title": "Literal rules become variables with methods", "statement": "A rule whose value is a literal generates a var and a Valid method whose receiver type is that variable's name; a text literal is written without quotes.", "quantifier": "every literal rule", "why_tests_cant": "all names and literals", "anchors": ["transforms/codegen/golang/gen_grouped.go:Visit", "transforms/codegen/golang/gen_literals.go:transpileTextLiteral"]}
{"id": "C55", "title": "Writing the generated file is not repeatable", "statement": "Calling String a second time puts a second import declaration with twice the imports in front of the first if there are imports, and changes nothing if there are none.", "quantifier": "every generator state before its first String call", "why_tests_cant": "all generator states", "anchors": ["transforms/codegen/golang/gen.go:String"]}
{"id": "C56", "title": "No case conversion is valid", "statement": "Options.Valid returns an error for every value of CaseConversion, including camelcase and snakecase.", "quantifier": "every string", "why_tests_cant": "all strings", "anchors": ["transforms/codegen/golang/options.go:Valid", "transforms/codegen/golang/gen_identifiers.go:init"]}
{"id": "C57", "title": "An early lexer error crashes generate after it has emptied the output", "statement": "If ParseFile returns neither a tree nor diagnostics (a lexer error among the first two tokens), generateFile panics, prints no report, and the output file has already been emptied.", "quantifier": "every source, file system and output path", "why_tests_cant": "all sources and prior contents", "anchors": ["cmd/cddlc/commands/generate.go:generateFile", "parser/parser.go:ParseFile", "transforms/codegen/golang/gen_grouped.go:Visit"]}
{"id": "C58", "title": "generate never changes sources or configuration", "statement": "However GenerateCmd ends, every regular file whose name does not end in .go has the contents it had before.", "quantifier": "every file system, configuration and refusal pattern of the operating system", "why_tests_cant": "all directory contents and failure points", "anchors": ["cmd/cddlc/commands/generate.go:GenerateCmd"]}
{"id": "C59", "title": "The default configuration generates an unnamed package", "statement": "Without a configuration file every output of a successful generate is written to dist/ with an empty package name.", "quantifier": "every directory without cddlc.* files", "why_tests_cant": "all directories", "anchors": ["config/config.go:NewDefaultConfig", "cmd/cddlc/commands/generate.go:GenerateCmd"]}
{"id": "C60", "title": "Generating a file again changes nothing", "statement": "After a successful generateFile a second call succeeds and leaves every path as it was.", "quantifier": "every source and output that is not an ancestor of the source", "why_tests_cant": "all file systems", "anchors": ["cmd/cddlc/commands/generate.go:generateFile"]}
{"id": "C61", "title": "Degenerate builds", "statement": "A null entry in builds crashes generate, and a build without an output directory fails at its first source; neither writes anything.", "quantifier": "every file system and remaining configuration", "why_tests_cant": "all configurations", "anchors": ["cmd/cddlc/commands/generate.go:GenerateCmd", "config/config.go:Config"]}
{"id": "C62", "title": "parse succeeds on sources with errors", "statement": "The parse command prints one report per diagnostic and the tree and then exits successfully, whether or not there were diagnostics, whenever the tree can be encoded.", "quantifier": "every decodable source ParseFile returns on", "why_tests_cant": "all malformed sources", "anchors": ["cmd/cddlc/commands.go:ParseCmd"]}
{"id": "C63", "title": "Printed tokens, positions and diagnostics identify what they print", "statement": "The text of a position determines its line and column, the text of a range the lines and columns of both ends. The lex command prints one line per token, and two decodable sources give the same lex output exactly if they have the same sequence of token kinds, literals, lines and columns. The text of an error list is the text of its diagnostics, one to a line; its range runs from the start of the first diagnostic to the end of the last.", "quantifier": "all positions, ranges, decodable sources and lists of diagnostics", "why_tests_cant": "injectivity ranges over all pairs of positions, sources and diagnostics", "anchors": ["token/position.go:Position.String", "token/position.go:PositionRange.String", "cmd/cddlc/commands.go:LexerCmd", "parser/diagnostic.go:ErrorList"]}
{"id": "C64", "title": "The upper bound of an occurrence is read again as its item", "statement": "In every accepted document the item of an occurrence with an explicit upper bound begins with the very numeral that is the bound, so it is never a name, a type, a text or a list; in an array `n*m item` gives an occurrence of the numeral m, and the item as an array element by itself.", "quantifier": "every accepted source and every occurrence inside its tree", "why_tests_cant": "no item of the form meant is possible, over all sources and nestings", "anchors": ["parser/parser.go:parseOccurrence", "examples/parser/main.go"]}
{"id": "C65", "title": "Exact diagnostics of documents of the grammar", "statement": "For a document of the accepted grammar whose names may be redefined or undefined and whose range bounds may be of the wrong kind, ParseFile returns the whole tree together with exactly these diagnostics, in order: one for each redefinition (at the new name, telling the line and column of the first value), then one for each failing check; it crashes exactly if a redefined name has a first value without a start.", "quantifier": "every decodable source derivable in the grammar and every start environment", "why_tests_cant": "all combinations of redefinitions, missing names and bad bounds in documents of any size", "anchors": ["parser/parser.go:parseRule", "parser/parser.go:ParseFile", "environment/environment.go:Add"]}
{"id": "C66", "title": "The whole lexical grammar", "statement": "On every decodable source the tokens Scan returns up to EOF, with their kinds, literals and positions, are exactly those of a stated grammar: the longest word, number or punctuation, based integers even without digits, numbers that go on over any digit rune and any dot before an ASCII digit and are floats as soon as one dot follows a digit (even if the dot is not part of the number), control words of ASCII letters, comments to the end of the line, strings closed or cut by the line end (then without their last byte), and single illegal runes. The grammar is unambiguous; Scan crashes exactly where it has no next token.", "quantifier": "every decodable source, every call of Scan, every classification of non-ASCII letters and digits", "why_tests_cant": "a token stream for every byte sequence, malformed ones included", "anchors": ["lexer/lexer.go:Scan", "lexer/lexer.go:scanNumber", "lexer/lexer.go:scanIdentifier", "lexer/lexer.go:scanControlOp", "lexer/lexer.go:scanString"]}
{"id": "C67", "title": "Where nodes of one token start and end", "statement": "In every tree ParseFile returns (with or without diagnostics) Start of a node made of one token is the position of that token in the source, and End is on the same line a fixed number of bytes from the end of the token's text: exact for names, bool, tstr, text, uint, int, nint, bytes, float and null; one byte short for true, false, float literals and comments; two short for quoted texts and float16/32/64; one byte too far for bstr and nil; and for an integer as many bytes after Start as its value has decimal digits, whatever its base. No unsigned literal is a node.", "quantifier": "every decodable source with a tree, every environment, every node of one token in the tree", "why_tests_cant": "all lexemes in all contexts, including numerals in all bases", "anchors": ["ast/boolean.go", "ast/text.go", "ast/float.go", "ast/integer.go", "ast/bytes.go", "ast/null.go", "token/position.go:To"]}
{"id": "C68", "title": "Where entries start", "statement": "Start of an accepted entry is the position of its first token that is no comment, whatever operators follow; except that a member with a number as key starts at the colon or arrow after the number, and that Start crashes exactly if the first operand was lost (comparators, ranges without bounds). In particular the value of every rule starts at the first token after the assignment.", "quantifier": "every accepted source and every entry", "why_tests_cant": "entries of any length and nesting", "anchors": ["ast/entry.go:Start", "ast/range.go:Start", "ast/control_comparator.go:Start", "parser/parser.go:parseEntry"]}
{"id": "C69", "title": "Where nodes end", "statement": "In an accepted document every node has a last part, found by following the operand written last through operators, prefixes, members and lists, and End is the End of that part, one byte further for each tag around it. End crashes exactly if that part is missing (a tag without item, a range with a lost bound) or an occurrence without upper bound, and is before the source if it is an empty list; otherwise no node ends before it starts.", "quantifier": "every accepted source and every node of its tree", "why_tests_cant": "trees of any depth and their source positions", "anchors": ["ast/typechoice.go:End", "ast/tag.go:End", "ast/occurrence.go:End", "ast/array.go:End", "ast/range.go:End"]}
{"id": "C70", "title": "How the REPL reads its input", "statement": "The lines the REPL sees are the input cut at newlines, each without one trailing carriage return, including a non-empty last piece without newline; a line of 65536 bytes or more ends the input. The text compared with the commands is the line without the longest runs of Unicode white space at both ends, and nothing else is removed.", "quantifier": "every input and every byte string, valid UTF-8 or not", "why_tests_cant": "all inputs, lengths around the buffer size and byte sequences", "anchors": ["cmd/cddlc/commands/repl.go:Repl"]}
{"id": "C71", "title": "The REPL's transcript", "statement": "What each line makes the REPL print, exactly: the help text, nothing for :pv, the trees of the bound arguments of :tree, and for CDDL the tokens if the lex flag is set, then one line per diagnostic and an empty line if there are any, then one line per rule if verbose; an accepted line prints nothing otherwise. Every turn starts with the prompt and the session goes on with the environment of the parse. Names shown by :tree contain no format verbs although they are used as a format.", "quantifier": "every session, list of lines and flag", "why_tests_cant": "all sessions of any length", "anchors": ["cmd/cddlc/commands/repl.go:Repl", "cmd/cddlc/commands/repl.go:printTokens", "cmd/cddlc/commands/repl.go:printcddlShort"]}
{"id": "C72", "title": "Exit status and output of the commands", "statement": "init exits with 0 exactly if it made the configuration file; generate exits with 0 only if every source of every build was accepted and has its output, prints only the fallback notice on stdout and reports diagnostics on stderr with status 1; lex prints all tokens and exits with 0 exactly if none is illegal, with 2 after a crash; parse's status depends only on the encoding of the tree; lex and parse take exactly one argument; qrepl exits with 0 after :exit, 1 at the end of the input, 2 after a crash; doctor prints the build information; gen is generate.", "quantifier": "every file system, input, argument list and external behaviour", "why_tests_cant": "all file systems, sources and build lists", "anchors": ["cmd/cddlc/main.go:main", "cmd/cddlc/commands.go:LexerCmd", "cmd/cddlc/commands.go:ParseCmd", "cmd/cddlc/commands.go:DoctorCmd", "cmd/cddlc/commands/generate.go:GenerateCmd", "cmd/cddlc/commands/init.go:InitCmd"]}
{"id": "C73", "title": "The tree parse prints", "statement": "What parse prints is one JSON value (RFC 8259) and, read back, the document of the tree: one object per node with exactly the exported fields of its struct in declaration order, null for nil, U+FFFD for bytes that are not UTF-8. Printing fails only for a float without JSON text or a document deeper than 10000 levels. If all lines of the sources end in ASCII, equal output means equal trees (up to the type of nil pointers); without that condition it does not.", "quantifier": "every decodable source, every float formatting that yields JSON numbers", "why_tests_cant": "all sources and all trees", "anchors": ["cmd/cddlc/commands.go:ParseCmd", "ast/cddl_root.go:CDDL", "ast/rule.go:Rule"]}
{"id": "C74", "title": "Reading a JSON configuration", "statement": "A configuration file is accepted exactly if, after blanks, it starts with a JSON value of depth at most 10000 that is null or an object whose members fit the fields: names match in any case, unknown members are ignored, the last string wins and null does not change a string, null empties the builds, wrong types are refused. Text after the value is ignored. Generate with any other cddlc.json fails without writing.", "quantifier": "every byte string, file system and directory", "why_tests_cant": "all byte strings and file systems", "anchors": ["config/config.go:LoadConfig", "cmd/cddlc/commands/generate.go:loadConfigFromDir", "config/config.go:Config", "config/config.go:BuildConfig"]}
{"id": "C75", "title": "Configurations survive writing and reading", "statement": "Every configuration with UTF-8 strings is read back unchanged from the text init's encoder makes of it; init's file is the default configuration in that encoding; after a successful init, generate runs exactly the default build, unless another cddlc.* file sorts first.", "quantifier": "every configuration, file system and working directory", "why_tests_cant": "all configurations and file systems", "anchors": ["cmd/cddlc/commands/init.go:InitCmd", "config/config.go:NewDefaultConfig", "cmd/cddlc/commands/generate.go:loadConfigFromDir", "cmd/cddlc/commands/generate.go:GenerateCmd"]}
{"id": "C76", "title": "The REPL reads the lines that were typed", "statement": "However the standard input arrives in pieces, and although every lexer made over the current line writes a space behind it into the scanner's own buffer, the lines the REPL reads are the lines of the input, each shows the same bytes before and after it is lexed, and the session's transcript and end depend on the input alone.", "quantifier": "every input, every way it is cut into reads, any number of lexers over each line", "why_tests_cant": "all inputs, read sizes and buffer positions (growth, shifting, the last line)", "anchors": ["cmd/cddlc/commands/repl.go:Repl", "lexer/lexer.go:NewLexer"]}
{"id": "C77", "title": "Which configurations are valid", "statement": "Config.Valid returns nil exactly if every plugin is there and its local path names a directory; otherwise the first plugin that is not so decides: null crashes the program, a path that is something else than a directory and a path os.Stat fails on are reported as such.", "quantifier": "every list of plugins, file system and working directory", "why_tests_cant": "all plugin lists and file systems", "anchors": ["config/config.go:Config.Valid", "config/config.go:Plugin.Valid", "config/config.go:PluginLocal.Valid"]}
{"id": "C78", "title": "Which generated files the Go compiler accepts", "statement": "For a CDDL file that declares no predeclared Go name and that the generator accepts, the generated syntax tree obeys the declaration, type, method, call and import rules of the Go specification exactly if: the package name is an identifier; the Go names of the rules are distinct identifiers; every rule's name in lower case is an identifier (the receiver); every value has a Go type, that is, no literal, no null, only known names, members with distinct identifiers for names, no embedded occurrence; no rule contains itself other than through an occurrence, none is an alias of an interface; no rule has a member called Valid; size constraints occur only on a rule called self and with sizes below 2^64; and the validators import is used and not repeated. In particular no file with a literal rule, a rule name containing $, -, . or @, or a size constraint on a rule not called self compiles.", "quantifier": "every list of rules, package name, and any ToCamel, ToLower and IsIdentifier functions", "why_tests_cant": "all files, both directions", "anchors": ["transforms/codegen/golang/gen_grouped.go:Visit", "transforms/codegen/golang/gen_grouped.go:bundleValidators", "transforms/codegen/golang/gen_operator.go:transformSizeOp", "transforms/codegen/golang/gen.go:String"]}
{"id": "C79", "title": "What diagnostics say is so", "statement": "Every diagnostic returned by ParseFile is true of the source: the token it points to is of the kind the message complains about, and what it says about that token holds (a number that does not fit, an operator not followed by a text, a token no value begins with, a name not followed by an assignment operator, a name defined before with the place of its earlier value, a tag number that does not fit, a name no rule defines in the end, range bounds whose final definitions differ in kind, a bound of the wrong kind, where the token before the range operator and the one after it, comments aside, are of the two kinds the message contrasts). A message on operand types is about an operator whose preceding token is none of the operands the message asks for, other than as the number of a tag.. Four messages of parser.go are never given: unexpected literal, expected uint literal, expected integer literal, negative lower bound.", "quantifier": "every decodable source, environment and float parser", "why_tests_cant": "All sources; a test compares messages on a few of them and cannot show that a message is never given.", "anchors": ["parser/parser.go:ParseFile", "parser/parser.go:parseEntry", "parser/parser.go:parseRule", "parser/parser.go:parseTag", "parser/parser.go:parseOccurrence", "parser/parser.go:parseIntBound"]}
{"id": "C80", "title": "The texts of diagnostics", "statement": "The text of each message is its Go format with the operands put in; Error.String puts 'parser error: ' before it and Diagnostic appends the range; ErrorList.String is one line per error. A message that names a line and column names those of the byte of the source at which the diagnostic starts.", "quantifier": "every message; every decodable source", "why_tests_cant": "all messages, operands and sources", "anchors": ["parser/diagnostic.go:String", "parser/diagnostic.go:Diagnostic", "parser/parser.go:errorTokenExpected", "parser/parser.go:errorUnexpectedPrefix"]}
{"id": "C81", "title": "The text of the tree printer", "statement": "astutils.Format gives for each tree the text its formats describe, nested parts indented by their depth. For trees whose names and floats print without a single quote, two trees have the same text exactly if they show the same: the names, numbers, types and positions of everything reached through choices and enumerations, and the number of entries of groups.", "quantifier": "every tree, any printing of floats", "why_tests_cant": "Trees are unbounded; unambiguity relates every pair of trees.", "anchors": ["ast/astutils/print.go:Format", "ast/astutils/print.go:format", "ast/astutils/print.go:formatTypeChoice", "ast/astutils/print.go:formatGroup"]}
{"id": "C82", "title": "Values of generated types are written as data the rules describe", "statement": "Let a CDDL document parse without a diagnostic into its tree and let the file generated from it be accepted by the Go compiler. If its rules are base types (bool, tstr, text, uint, int, bytes), names of rules, arrays or groups whose entries are members with exported Go names, optional members, names of groups and names of scalar rules, with no two members of an array (counting those of the groups it names) of one Go name, then every value of a generated type, with UTF-8 strings and non-nil slices, is written by fxamacker/cbor as exactly one CBOR item, and the rule describes that item (RFC 8610). Each condition is needed: unnamed array items are dropped, arrays named inside arrays are flattened, fields of groups are hidden by later ones of the same name, members named by sockets are not exported, nil slices become null, and strings need not be UTF-8.", "quantifier": "every document of the fragment, every source of it, every value; any conversion of names to Go", "why_tests_cant": "Relates the meaning of every document to every value of the types made from it.", "anchors": ["transforms/codegen/golang/gen_grouped.go:Visit", "transforms/codegen/golang/gen_grouped.go", "transforms/codegen/golang/gen_identifiers.go:transpileIdentifier", "parser/parser.go:ParseFile"]}
{"id": "C83", "title": "Described data have values", "statement": "In the situation of C82, without optional members: every item that a rule describes and whose integers fit into Go's int is what some value of the generated type is written as. Both conditions are needed: an optional member is always written, and an int of CDDL may be outside the range of Go's.", "quantifier": "every document of the fragment without optional members, every item", "why_tests_cant": "All documents and all data they describe.", "anchors": ["transforms/codegen/golang/gen_grouped.go:Visit", "transforms/codegen/golang/gen_grouped.go"]}
{"id": "C84", "title": "Layout does not matter, except for the lines of comments", "statement": "Two decodable sources made of the same lexemes, with any blanks between them, have the same outcome positions apart: both parses panic, or both return the same tree, the same diagnostics and leave the same definitions in the environment. This holds for sources with errors too. The only condition is that a comment is on the line of the lexeme before it in both or in neither; without it the trees differ. In particular the blanks between two lexemes can be replaced by any other non-empty blanks (if a comment or an unfinished text literal before them is still ended by a newline).", "quantifier": "every pair of decodable sources with the same lexemes, every environment, every classification of non-ASCII runes", "why_tests_cant": "a relation between all sources and all their layouts, malformed sources included", "anchors": ["parser/parser.go:ParseFile", "parser/parser.go:parseEntry", "parser/parser.go:isSameLineTokens", "lexer/lexer.go:skipWhitespace"]}
{"id": "C85", "title": "Appending lines affects the last rule only", "statement": "Let a decodable source be parsed, and the same source with a newline and a decodable text appended, in the same environment, both yielding a tree. Then the two trees have the same entries, positions included, except that the first may end with one entry the second need not have; likewise the definitions made differ at most by the last one of the first. The diagnostics of the first are common ones, at most one more, and those of the deferred checks; the second starts with the same common ones. This holds for sources with errors. The last entry itself is not safe: a line such as '/ tstr' changes it.", "quantifier": "every decodable source, every decodable text appended, every environment, every classification of non-ASCII runes", "why_tests_cant": "a relation between the parses of all pairs of a source and an extension of it, malformed sources included", "anchors": ["parser/parser.go:ParseFile", "parser/parser.go:parseRule", "lexer/lexer.go:Scan"]}
{"id": "C86", "title": "Accepted sources can be concatenated", "statement": "If a source is accepted without a diagnostic, and a second one is accepted in the environment the first leaves, then the two with a newline between them are accepted: the tree has the rules of the first, positions included, followed by those of the second, positions apart, and the same definitions are made. Conditions: the first does not end with a rule that has a comment on its last line, nor with a comment when the second starts with one; and the second defines no socket. The first and the last are needed: the token after such a comment is lost, and a range between sockets is checked against definitions made later.", "quantifier": "every pair of decodable accepted sources meeting the conditions, every environment made by additions of nodes, every classification of non-ASCII runes", "why_tests_cant": "a relation between the parses of all pairs of accepted sources", "anchors": ["parser/parser.go:ParseFile", "parser/parser.go:parseRule", "parser/parser.go:parseInnerComment"]}
{"id": "C87", "title": "The order of diagnostics", "statement": "The diagnostics ParseFile returns for a decodable source come in two runs. Those of the first are given while reading: they start at pairwise different bytes, in the order of the text, and none of them says that a name does not exist or that two names have different types. Those of the second are given by the deferred checks and concern names; they are in the order of the text as to the byte where they end. The list as a whole is in order neither by start nor by end, and the second run is not in order by start. Hence Start of the returned list is where the earliest diagnostic of reading starts, if there is one, and End is where the last deferred check ends, if one failed; but a deferred diagnostic can start before Start.", "quantifier": "every decodable source, every environment, every classification of non-ASCII runes, every result with diagnostics", "why_tests_cant": "order among the diagnostics of every malformed source, nested and recovered from in any way", "anchors": ["parser/parser.go:ParseFile", "parser/parser.go:parseRule", "parser/parser.go:parseEntry", "parser/parser.go:parseNamedIdentifier", "parser/parser.go:parseBound"]}
{"id": "C88", "title": "The order of rules does not matter", "statement": "Let sources each parse with no diagnostic but those about names defined elsewhere, none ending with a comment, and no name be defined twice by them or the environment. Put on lines after each other, in any order, they parse: the tree has their rules in that order, positions apart; the same definitions are made; and the same diagnostics are given, both up to order and positions. So whether the file is accepted does not depend on the order. The conditions are needed: of two definitions of a name the first counts, and a comment on the line of the last rule takes the first token of what follows.", "quantifier": "every list of decodable sources meeting the conditions, every permutation of it, every environment, every classification of non-ASCII runes", "why_tests_cant": "all permutations of all lists of sources", "anchors": ["parser/parser.go:ParseFile", "parser/parser.go:parseRule", "parser/parser.go:parseNamedIdentifier", "environment/environment.go:Add"]}
{"id": "C89", "title": "Names do not matter", "statement": "Let f rename identifiers: different names stay different, a name has a leading dollar sign if and only if it had one, and strings that cannot be names stay as they are. If a source is rewritten by replacing every identifier w by f(w), where f(w) is again an identifier and not a keyword, and the blanks as in C84, then ParseFile has the same outcome on both, names and positions apart: both panic; or both trees, both lists of diagnostics (with the names in their messages) and both environments are the same once renamed by f. In particular both are accepted or neither. The conditions are needed: with two names made one, or a dollar sign added, the outcome differs.", "quantifier": "every renaming f, every pair of decodable sources related by it, every pair of related environments, every classification of non-ASCII runes", "why_tests_cant": "all renamings of all sources, including malformed ones", "anchors": ["parser/parser.go:ParseFile", "parser/parser.go:parseRule", "parser/parser.go:parseNamedIdentifier", "parser/parser.go:parseColon", "parser/parser.go:parseBound", "environment/environment.go:Add", "environment/environment.go:Exists"]}
{"id": "C90", "title": "Reformatting does not change the generated file", "statement": "The generator looks neither at positions nor at comments. If a source is laid out differently as in C84, cddlc generate ends in the same way, prints as many reports and leaves the same files, the source apart; in particular the generated text is the same, or there is none for either. The same holds for two sources that write well formed documents (C16) which differ only in their comments and in optional commas; and so for a document and the document without its comments, provided that commas stand between the elements of its groups. Without a comma a comment is a separator and deleting it can change the generated file; moving a comment onto the line of the rule before it can make generation fail.", "quantifier": "every pair of decodable sources related by a change of layout; every pair of sources of well formed, resolved documents that differ in comments and commas; every file system, pair of paths with the output not below the source, package name, failure of system calls, formatting of Go code and conversion of names", "why_tests_cant": "all layouts and all comments of all sources", "anchors": ["transforms/codegen/golang/gen_grouped.go:Visit", "transforms/codegen/golang/gen_grouped.go:transpileNode", "transforms/codegen/golang/gen_grouped.go:transpileGroupLike", "cmd/cddlc/commands/generate.go:generateFile", "parser/parser.go:ParseFile"]}
{"id": "C91", "title": "A session of the REPL and the file of its lines", "statement": "Given lines that are not commands and of which the lexer does not complain in the first two tokens, the REPL prints nothing exactly when every line is accepted with the definitions of the lines before it, and then it remembers all of these definitions in order. The file of the same lines is then accepted too, with the same rules and the same definitions (positions apart), provided that no line but the last ends with the comment of a rule, no comment follows a comment, and no socket is defined. The converse fails: a file may use a name before the line that defines it, a session may not. Without the provisos a session can be silent while the file is refused: a line with an early lexer error is ignored silently, and a trailing comment swallows the next name in a file only.", "quantifier": "every list of decodable lines, every library behaviour", "why_tests_cant": "all sessions of any length and all lines", "anchors": ["cmd/cddlc/commands/repl.go:Repl", "parser/parser.go:ParseFile", "parser/parser.go:parseRule", "environment/environment.go:Add"]}
{"id": "C92", "title": "The accepted language and the grammar of RFC 8610", "statement": "Every document built from the constructs shared with RFC 8610 (names, prelude type keywords, unsigned integers, texts, type and group choices, ranges, size, regexp, bits and comparison controls, maps, arrays, groups, occurrences, members, unwrap, enumerations, comments) is, in every layout with spaces and newlines between its lexemes, a text of the RFC's grammar; and ParseFile accepts it as that document if its tokens are the lexemes. Beyond these neither language contains the other: there are texts of RFC 8610 that ParseFile refuses, among them negative numbers, byte strings, generics and text keys, and texts that ParseFile accepts without complaint although no derivation of the RFC's grammar gives them, among them unterminated strings and unclosed tags.", "quantifier": "every document of the fragment, every layout, every library behaviour; for the negative part witnesses", "why_tests_cant": "all documents of any size and all their layouts; that a text has no derivation is a statement about all derivations", "anchors": ["parser/parser.go:ParseFile", "parser/parser.go:parseRule", "parser/parser.go:parseEntry", "lexer/lexer.go:Scan", "token/token.go:tokens"]}
{"id": "C93", "title": "What the tree keeps of a document", "statement": "Two well formed documents get the same tree, positions apart, if and only if they differ only in the spelling of numbers of the same value, in commas and comments before elements of brackets, in * and 0*, + and 1+, in the kind of assignment (=, /=, //=), in : and =>, and in the left operands of comparisons. So the tree that ParseFile returns suffices to write a document that parses to the same tree again, provided that no two rules have one name; without this the written document is refused, since /= has become =.", "quantifier": "all documents of the fragment of C16, all their sources, every library behaviour", "why_tests_cant": "that everything else is kept is a statement about all pairs of documents", "anchors": ["parser/parser.go:ParseFile", "parser/parser.go:parseRule", "parser/parser.go:parseComparatorOp", "ast/rule.go:Rule", "ast/occurrence.go:NMOccurrence"]}
{"id": "C94", "title": "Grouping of operators compared with RFC 8610", "statement": "RFC 8610 gives a document a structure: / binds weaker than controls and ranges, ~ and & take a name or a parenthesis, // separates lists of entries and binds weakest. The tree that ParseFile makes of a document has this structure if and only if no right operand of a control, and no operand of ~ or &, contains an operator outside of brackets, and // occurs only within the only element of a bracket. For all other documents the structure of the tree cannot be written with the lexemes of the document: it needs parentheses that are not there, or cannot be written at all. So uint .size 2 / tstr becomes uint .size (2 / tstr), and { a // b, c } becomes { (a // b), c }.", "quantifier": "all documents of the fragment of C16 that have a structure of RFC 8610, all their sources, every library behaviour", "why_tests_cant": "that the two groupings coincide for exactly these documents is a statement about all documents of any depth", "anchors": ["parser/parser.go:parseEntry", "parser/parser.go:parseTypeChoice", "parser/parser.go:parseSizeOperator", "parser/parser.go:parseUnwrap", "parser/parser.go:parseEnumeration", "parser/parser.go:ParseFile"]}
{"id": "C95", "title": "The generated file is made piece by piece, and unused rules can be left out", "statement": "Let a file consist of blocks of rules as in C88 and be accepted. Each block has a piece (declarations, and a number of imports of the validators package) that depends on the block alone; generation succeeds exactly if every block has one, and the generated file then has the pieces in the order of the blocks. If some blocks define only names that are not among the identifiers of the other blocks, the file without them is accepted too, its tree and definitions are those of the remaining blocks, and the file generated from it lacks exactly the pieces of the blocks left out. The condition is needed: without a block that is used the file is refused.", "quantifier": "every list of blocks of rules, every choice of blocks to leave out, every package name, library behaviour and formatting of Go code", "why_tests_cant": "all files, all ways to leave out rules; that nothing else changes is a statement about all other rules", "anchors": ["transforms/codegen/golang/gen_grouped.go:Visit", "transforms/codegen/golang/gen.go:String", "parser/parser.go:ParseFile", "parser/parser.go:parseNamedIdentifier", "cmd/cddlc/commands/generate.go:generateFile"]}
{"id": "C96", "title": "Reading data into generated types", "statement": "In the situation of C82: what a value of a generated type, with UTF-8 strings and non-nil slices, is written as by fxamacker/cbor is read back as that value and no other; so different values are written as different data. Without optional members, data that the rule describes and whose integers fit into Go's are read, and the value this gives is written as the same data. Data without null and tags that are read give such a value, and are described by the rule, except that arrays of numbers may stand in place of byte strings. The exceptions are needed: null is read as zero, an array of numbers as bytes, and data that leave out an optional member, or have integers beyond the range of Go's int, are refused.", "quantifier": "every document of the fragment of C82, every source of it, every value and every data item; any conversion of names to Go", "why_tests_cant": "all documents, all values and all data; that nothing else is read is a statement about all data not described", "anchors": ["transforms/codegen/golang/gen_grouped.go:Visit", "transforms/codegen/golang/gen_grouped.go", "transforms/codegen/golang/gen_identifiers.go:transpileIdentifier", "parser/parser.go:ParseFile"]}
{"id": "C97", "title": "Comments keep their text", "statement": "In every file of the fragment of C16 the comments and comment groups among the entries of the tree say, in order, exactly what the comments before the rules and after the last rule say, each followed by a newline. A file of two or more comments on lines of their own is one comment group, whatever blanks and empty lines are between them, whose String is the lines without their semicolons; a file of one is a comment. String of a group determines the comments in it, String of an identifier its name. Two things fail: a comment group is not free of empty lines, as its documentation says, and String of a file does not show the values of its rules.", "quantifier": "every document and source of C16, every list of comment lines in any layout, every environment and library behaviour; every group, identifier and file", "why_tests_cant": "all documents and all layouts of comments", "anchors": ["ast/comment.go:String", "ast/identifier.go:String", "ast/cddl_root.go:String", "parser/parser.go:parseComment"]}
{"id": "C98", "title": "When generate succeeds", "statement": "If the system refuses no call, a build succeeds exactly if its source directory exists and every entry *.cddl in it is a file that parses without diagnostics and that the generator accepts, no file is on the way to the output directory, and no output is a directory; it then reports nothing. Several such builds succeed together if no output file of one is on the way to the output directory of another and no directory on the way to one is named like a source of another; every output then holds the text compiled from a source of it, the directories on the way to outputs exist, and everything else is as before. The condition is needed. Without a configuration and with nothing in the way, generate succeeds exactly if all sources in the working directory compile. If a source is in the situation of C96, its output is the header and the formatted declarations whose values are written as data the source describes and are read back.", "quantifier": "every file system that is a tree, every configuration and list of builds, every library behaviour and formatting", "why_tests_cant": "all file systems, configurations and sources; that nothing else changes is a statement about all paths", "anchors": ["cmd/cddlc/commands/generate.go:GenerateCmd", "cmd/cddlc/commands/generate.go:generateFile", "config/config.go:NewDefaultConfig"]}
{"id": "C99", "title": "How the parser finds its way back after an error", "statement": "No value is read past one of the signs =, /= and //=. So, whatever a source holds, if it has a name, a sign and a value of one token (a type of the prelude or a literal) followed by another name and a sign, the tree of the source has a rule of the second name at its place; if that rule is a definition by a type of the prelude or a text and a name or the end of the source follows, its name is bound. In particular, after any text on lines before them, however broken, of lines with rules of one-token values all but the first are found. Rules that stand for others do not help: after a rule without a value all following rules that are nothing but another name are lost, to the end of the source.", "quantifier": "every decodable source that is parsed without a crash, every position in it, every environment and library behaviour; every list of rules that are names of others", "why_tests_cant": "all texts before the rules, all ways to be wrong", "anchors": ["parser/parser.go:ParseFile", "parser/parser.go:parseRule", "parser/parser.go:parseEntry"]}
{"id": "C100", "title": "What the parser makes is no larger than the source", "statement": "For a source of k tokens the tree that ParseFile returns has at most 2k + 1 nodes (names, comments and bounds counted, nil not), there are at most k diagnostics, and at most k/3 names are new in the environment; the same holds with the number of bytes for k. The bounds are of the right size: for every k there are sources of k + 3 tokens that are accepted with 2k + 4 nodes; a source with neither names nor comments has as many diagnostics as tokens, and there is one for every number of tokens.", "quantifier": "every source and environment and every library behaviour; every length", "why_tests_cant": "a bound for all sources at once: tests of some sources do not exclude that others make trees or lists of diagnostics that grow faster than the source", "anchors": ["parser/parser.go:ParseFile", "parser/parser.go:parseRule", "parser/parser.go:parseEntry", "parser/parser.go:parseOccurrence"]}
{"id": "C101", "title": "What the environment changes in a parse", "statement": "For every source there is a list of reports and definitions, a tree and a list of checks that do not depend on the environment; parsing in an environment carries them out there. So two parses of one source in different environments, if both end, give the same tree and the same diagnostics that are not about names. If a parse ends in an empty environment, it ends in every environment whose values have a Start; a name is then bound to what the environment binds it to, or else to what it is bound to when starting empty; a name is reported as missing exactly where it is when starting empty, unless the environment binds it; a definition of a name that the environment does not bind is reported as existing exactly as when starting empty; and if the environment binds a name that the source defines, this is reported with the place of the old value. A source accepted in one environment is accepted in every larger one with the same tree and definitions, if the larger one binds none of the names the source defines and no further name that begins with a dollar sign. The last condition is needed, and a parse that ends in some environment may crash in an empty one.", "quantifier": "every source, environment, library behaviour and amount of fuel", "why_tests_cant": "a test parses in one or two environments; the independence of the tree and the exact effect on the reports concern all pairs of environments", "anchors": ["parser/parser.go:78-107", "parser/parser.go:122-180", "parser/parser.go:26-30", "environment/environment.go:15-46"]}
{"id": "C102", "title": "Values of literals and texts of comments do not matter to the parser", "statement": "Take two sources made of the same lexemes except that comments and text literals have other contents, integers that fit into 63 bits are replaced by other such integers (in any base), and numbers with a fraction or an exponent that can be read are replaced by other such numbers that read in the same way as the head of a tag; blanks may differ too, as long as a comment starts on the line of the lexeme before it in both or in neither. Then both parses crash or both end, with the same tree, the same diagnostics and the same definitions, apart from positions, values of literals, keys written as numbers and texts of comments. In particular one is accepted if the other is. An integer that does not fit may not be written for one that does.", "quantifier": "every pair of such sources, every pair of environments that agree in the same sense, every library behaviour", "why_tests_cant": "tests parse sources with a few chosen literals; that no other value leads to another shape concerns all values at all places at once", "anchors": ["parser/parser.go:78-107", "parser/parser.go:270-318", "parser/parser.go:336-368", "parser/parser.go:420-500", "parser/parser.go:606-624", "parser/parser.go:705-727", "parser/parser.go:771-938"]}
{"id": "C103", "title": "Blank lines before a source move everything by as much", "statement": "Let g be whole lines of blanks. Parsing g followed by a source crashes exactly if parsing the source does; otherwise it gives the tree, the diagnostics and the definitions of the source with every position that was set moved down by the number of lines of g and forward by its number of bytes, columns unchanged; the line numbers in messages, including the place of an earlier definition, are moved in the same way, and nothing else changes. Blanks that do not end with a newline move columns too, so the condition is needed.", "quantifier": "every decodable source, every such g, every environment (moved likewise) and library behaviour", "why_tests_cant": "tests compare positions in a few sources; that no position anywhere in a tree or message is missed or moved twice concerns all sources at once", "anchors": ["lexer/lexer.go:40-49", "lexer/lexer.go:186-195", "token/position.go:35-42", "parser/parser.go:78-107", "parser/parser.go:122-180", "parser/parser.go:649-659", "parser/parser.go:940-968"]}
{"id": "C104", "title": "The texts of comments change neither the generated file nor a diagnostic", "statement": "If two sources consist of the same lexemes apart from the texts of their comments, with any blanks between them provided that a comment has a newline before it in both or in neither, then parsing crashes for both or for neither; otherwise the trees, the diagnostics with their messages and the definitions are the same, positions and the texts of comments apart. So cddlc generate ends in the same way for both, prints as many reports and leaves the same files, the source apart: what a comment says, even if it looks like CDDL, cannot reach the generated Go.", "quantifier": "all pairs of such decodable sources, all environments, all library, command line and file system behaviour", "why_tests_cant": "tests use a few comments in a few places; that no text of a comment in any place of any source is looked at needs all of them", "anchors": ["lexer/lexer.go:93-96", "parser/parser.go:122-180", "parser/parser.go:185-223", "parser/parser.go:705-726", "transforms/codegen/golang/gen_grouped.go:227-269", "transforms/codegen/golang/gen_literals.go:32-36", "cmd/cddlc/commands/generate.go:generateFile"]}
{"id": "C105", "title": "Reformatting the sources of a project does not change what generate leaves", "statement": "Take two file systems with the same files and directories, except that files named *.cddl may differ in the blanks between their lexemes and in the texts of their comments (as in C104). Then cddlc generate, run in the same directory with the same configuration, prints the same to standard output, ends with the same outcome and exit status, and reports as many errors; afterwards every file that is not a *.cddl file is the same in both. Standard error is the same too unless a source had errors.", "quantifier": "all pairs of such file systems, all configurations, working directories, refusals of the operating system and library behaviour (if the path of the working directory contains pattern characters, Glob has to find the same files)", "why_tests_cant": "tests run one project with one layout; that no combination of builds, directories and files lets the layout of one source reach another file needs all of them", "anchors": ["cmd/cddlc/commands/generate.go:46-97", "cmd/cddlc/commands/generate.go:99-110", "cmd/cddlc/commands/generate.go:generateFile", "cmd/cddlc/main.go", "parser/parser.go:122-180"]}
{"id": "C106", "title": "Running generate again changes nothing", "statement": "If cddlc generate succeeds and made nothing named *.cddl, and nothing named cddlc.* in the working directory, then running it again succeeds without reports and leaves every file and directory as the first run left them, however many builds there are, even if several builds write the same output. Both conditions are needed: an output directory named like a source makes the second run fail because it cannot be read, and an output named like a configuration is taken for one and makes the second run fail.", "quantifier": "all file systems in which everything lies in a directory, all configurations, working directories without pattern characters, refusals of the operating system and library behaviour", "why_tests_cant": "tests run generate once on one project; that no combination of builds with shared directories and outputs makes the second run differ needs an invariant over the states of both runs", "anchors": ["cmd/cddlc/commands/generate.go:46-97", "cmd/cddlc/commands/generate.go:99-110", "cmd/cddlc/commands/generate.go:112-147", "config/config.go:95-116"]}
{"id": "C107", "title": "generate reads the texts of sources and of the configuration only", "statement": "Take two file systems with the same files and directories whose texts differ only in files that are neither named *.cddl nor cddlc.json or cddlc.yaml: old outputs, notes, anything else. Then cddlc generate prints the same to standard output and standard error and ends the same way on both; afterwards each file has the same text in both, or it is one of those files and neither run has touched it. In particular what an output file held before has no influence on what it holds afterwards.", "quantifier": "all pairs of such file systems, all configurations, working directories, refusals of the operating system and library behaviour (if the path of the working directory contains pattern characters, Glob has to find the same files)", "why_tests_cant": "that a program does not look at a file is a statement about pairs of runs, for all texts of all other files; a test compares a few runs", "anchors": ["cmd/cddlc/commands/generate.go:46-97", "cmd/cddlc/commands/generate.go:99-110", "cmd/cddlc/commands/generate.go:112-147", "config/config.go:95-116"]}
{"id": "C108", "title": "Comment lines at the top of a source are harmless", "statement": "Put lines of comments and blanks before a source that does not itself begin with a comment. If the source alone gives a tree, then with the header it gives one too: first a comment with the texts of the header, in order, then the same rules, and the same diagnostics, all further down by the lines of the header and in the same columns. The generated text and the run of generate are the same. It is not so if the source alone gives no tree: a bad string among its first two tokens ends the parse with neither tree nor diagnostics, and behind a header the same source gives both.", "quantifier": "all headers, all sources, all environments and library behaviour", "why_tests_cant": "tests parse a few sources with a few comments; that no header of any length moves the parser to another state than the moved one needs a simulation of both parses", "anchors": ["parser/parser.go:78-120", "parser/parser.go:122-135", "parser/parser.go:705-727", "lexer/lexer.go:228-240"]}
{"id": "C109", "title": "Lexers over pieces of one buffer", "statement": "Make a lexer for a slice, then make and scan other lexers for slices of the same array and write to the array, in any order. Each call of Scan returns what it returns for a lexer alone on the text the slice had when its lexer was made, or fails in the same way, provided no write (by the caller or by another NewLexer, which makes the byte behind its slice a space) hits the bytes of the slice; if the slice had no spare capacity, whatever is written. It is not enough that the slices share no byte: making the lexer of a piece spoils the first byte of the piece directly behind it, and an identifier token can then have a literal that begins with a space. Whether later writes of the caller are seen depends on the capacity of the slice.", "quantifier": "all arrays, slices, interleavings of calls and writes, and library behaviour", "why_tests_cant": "tests give each lexer its own buffer; interference between lexers depends on capacities, on the order of the calls and on where the slices lie", "anchors": ["lexer/lexer.go:52-66", "lexer/lexer.go:69-196", "lexer/lexer.go:198-210"]}
{"id": "C110", "title": "Calling ParseFile again", "statement": "After ParseFile has returned a tree, further calls on the same parser never return the rules again. If the source has an unterminated string anywhere, each further call returns neither tree nor diagnostics, so the error the first call passed over now hides everything. Otherwise each returns an empty tree and the diagnostics of the first call, followed by those of the deferred checks (undefined names, kinds of bounds) once more for every further call; the environment stays as it is.", "quantifier": "all decodable sources, all environments, any number of further calls, all library behaviour", "why_tests_cant": "tests call ParseFile once per parser; what accumulates over calls depends on the source's errors and on how often it is called", "anchors": ["parser/parser.go:78-107", "parser/parser.go:70-75", "parser/diagnostic.go:96-101"]}
{"id": "C111", "title": "Line endings do not matter", "statement": "Write every newline of a source as carriage return and newline. If the lexer goes through the source without recording an error and every line is ended, parsing crashes for both or for neither; otherwise the second tree, diagnostics and definitions are the first with every position that was set further by one byte for each line before it, lines and columns the same, and with a carriage return at the end of the text of every comment; messages are the same. So all reports stand at the same lines and columns. The generated file and the run of generate are the same, also if the last line is not ended. The condition on the lexer is needed: a text literal that is not closed loses its last byte with newlines only and keeps it with carriage returns, and an empty one crashes the parser with newlines only.", "quantifier": "all decodable sources without open text literals, all environments and library behaviour", "why_tests_cant": "tests read a few files with one kind of line ending; that no token, position, tree or report depends on it needs a simulation of two lexers and two parsers over all sources", "anchors": ["lexer/lexer.go:40-49", "lexer/lexer.go:69-72", "lexer/lexer.go:212-219", "lexer/lexer.go:228-237", "lexer/lexer.go:319-335", "parser/parser.go:78-120", "parser/parser.go:705-727"]}
{"id": "C112", "title": "A byte order mark at the start of a source costs one diagnostic", "statement": "Put one character that begins no token and is no blank before a source: a byte order mark, any other character beyond ASCII but U+FFFD, or an ASCII character such as %. If the source alone gives a tree, parsing both gives the same tree, definitions and diagnostics, with every position that was set further by the bytes of that character, with columns further by as many on the first line only, and with one diagnostic before the others, \"expected IDENT\" at 1:1. If the source alone crashes the parser, both do, or nothing is parsed because of an early lexer error. Whatever the source is, both together are never compiled: generate does not succeed, and leaves the output file empty if it can open it. Two exceptions are real: an early lexer error is not early behind such a character and is never reported, and a crash on the second token becomes an early lexer error.", "quantifier": "all such characters, all decodable sources, environments, library and operating system behaviour", "why_tests_cant": "tests would try one mark before a few files; that error recovery after it is exact for every source, with every position and message shifted consistently, needs a simulation of two parsers", "anchors": ["lexer/lexer.go:51-66", "lexer/lexer.go:68-90", "lexer/lexer.go:198-210", "parser/parser.go:78-120", "parser/parser.go:955-957", "parser/parser.go:994-1054", "cmd/cddlc/commands/generate.go:112-148"]}
{"id": "C113", "title": "Walk with visitors that modify the tree", "statement": "Take nodes in memory, with visitors whose Visit may change any of it. If no call changes a link that Walk reads (a part of a node, a slice of parts), Walk behaves as on the tree there was at the start, whatever else is changed, names for example; a visitor that never prunes and never fails is then called for exactly those nodes in pre-order, each closed by a call with nil. The parts of a node are those it has when Visit has returned for it; what then becomes of the slice of a list does not matter, appended elements are not visited and removed ones are. Each part is read when its turn comes, so that what is put in the place of a later part is visited instead. With visitors that change nothing, Walk in memory is Walk on trees, so that C33 to C35 carry over. Without these conditions Walk need not end: a visitor that makes an Optional its own item is called forever.", "quantifier": "all memories (sharing and cycles included), nodes, visitors and visitor states", "why_tests_cant": "tests would try a few visitors on a few trees; which modifications are harmless is a statement about all of them, and that a walk does not end cannot be seen in finite time", "anchors": ["ast/astutils/walk.go:9-188"]}
{"id": "C114", "title": "Parsers that share an environment", "statement": "Several parsers are given one environment (WithEnv) and their ParseFile is called, one call after the other. If each is called once, in any order, each call returns what is returned if its source is parsed in the environment the calls before it left; when the parsers were made does not matter. Whatever calls are made, a name stays bound to what it was first bound to, the diagnostics of a parser are only added to, and a call changes no other parser. If a parser has returned a tree, its source has no bad string, others are called and then it is called again, it returns an empty tree, defines nothing, and repeats its diagnostics with those of its deferred checks behind them: of the names it missed the first time, these report exactly those that have not been defined since, but what was said the first time is not taken back. Sources accepted in turn, from an empty environment, make one file that is accepted, with the same rules in the order of the calls and the same definitions, positions apart (under the conditions of C91). That the order of the calls does not matter is false.", "quantifier": "all numbers of parsers, sequences of calls, sources (decodable ones for the second calls), environments, fuel and library behaviour", "why_tests_cant": "tests would call a few parsers in a few orders; the claims are about all sequences of calls and all sources", "anchors": ["parser/parser.go:26-30", "parser/parser.go:64", "parser/parser.go:78-107", "parser/parser.go:150-165", "parser/parser.go:234-237", "parser/parser.go:876-888", "parser/parser.go:921-933", "parser/parser.go:977-990", "environment/environment.go:20-46"]}
{"id": "C115", "title": "An output directory that cannot be there", "statement": "If a file is at the output directory of a build or on the way to it, the build changes nothing in the file system, prints no diagnostic, does not crash, and fails if its source directory has an entry *.cddl; if that holds for all builds, the whole command changes nothing. If the output directory is missing, nothing is in its way and the system refuses to make it or a directory on the way to it, the build fails with the error of MkdirAll; no file is changed, and at most directories on the way have been made.", "quantifier": "every file system (a tree for the second part), working directory, configuration, set of refused system calls and library behaviour", "why_tests_cant": "tests would try a few layouts; that nothing at all is changed is a statement about every path and every source", "anchors": ["cmd/cddlc/commands/generate.go:62-92", "cmd/cddlc/commands/generate.go:generateFile"]}
