{
 "claims": [
  {
   "property": "C01",
   "status": "proved",
   "theorems": [
    "C01_decodable_reaches_eof",
    "C01_eof_only_if_decodable",
    "C01_hang_is_divergence"
   ],
   "note": "Lexing reaches EOF exactly on decodable sources"
  },
  {
   "property": "C02",
   "status": "proved",
   "theorems": [
    "C02_positions_exact"
   ],
   "note": "Token positions are exact"
  },
  {
   "property": "C03",
   "status": "proved",
   "theorems": [
    "C03_tokens_tile_source",
    "C03_tokens_tile_whole_source"
   ],
   "note": "Tokens tile the source"
  },
  {
   "property": "C04",
   "status": "proved",
   "theorems": [
    "C04_literal_is_text"
   ],
   "note": "Literals reproduce the source text"
  },
  {
   "property": "C05",
   "status": "proved",
   "theorems": [
    "C05_eof_sticky"
   ],
   "note": "EOF is sticky and sits at the end of the source"
  },
  {
   "property": "C06",
   "status": "proved",
   "theorems": [
    "C06_spaced_lexemes",
    "C06_spaced_no_errors"
   ],
   "note": "Space separated lexemes lex back to themselves"
  },
  {
   "property": "C07",
   "status": "proved",
   "theorems": [
    "C07_words_maximal"
   ],
   "note": "Identifiers are maximal and classified by the keyword table"
  },
  {
   "property": "C08",
   "status": "proved",
   "theorems": [
    "C08_lookup",
    "C08_lookup_inverts_names",
    "C08_names_distinct"
   ],
   "note": "Keyword lookup inverts token names"
  },
  {
   "property": "C09",
   "status": "proved",
   "theorems": [
    "C09_numbers"
   ],
   "note": "Number tokens cover whole numerals"
  },
  {
   "property": "C10",
   "status": "proved",
   "theorems": [
    "C10_panics_exactly_on_empty_open_string"
   ],
   "note": "Scan crashes exactly on an empty unterminated string"
  },
  {
   "property": "C11",
   "status": "proved",
   "theorems": [
    "C11_errors_recorded"
   ],
   "note": "Unterminated strings are recorded once each"
  },
  {
   "property": "C12",
   "status": "proved",
   "theorems": [
    "C12_caller_buffer"
   ],
   "note": "NewLexer's effect on the caller's buffer"
  },
  {
   "property": "C13",
   "status": "proved",
   "theorems": [
    "C13_classes",
    "C13_precedence",
    "C13_isLiteral"
   ],
   "note": "Token classes and precedences"
  },
  {
   "property": "C14",
   "status": "proved",
   "theorems": [
    "C14_terminates"
   ],
   "note": "ParseFile terminates"
  },
  {
   "property": "C15",
   "status": "proved",
   "theorems": [
    "C15_returns",
    "C15_plain",
    "C15_needed"
   ],
   "note": "ParseFile does not crash outside the known crash shapes"
  },
  {
   "property": "C16",
   "status": "proved",
   "theorems": [
    "C16_any_layout",
    "C16_written",
    "C16_round_trip"
   ],
   "note": "Well formed documents parse to their tree"
  },
  {
   "property": "C17",
   "status": "proved",
   "theorems": [
    "C17_accepts_iff",
    "C17_entry_iff"
   ],
   "note": "Accepted input means what the grammar says"
  },
  {
   "property": "C18",
   "status": "proved",
   "theorems": [
    "C18_references_resolve"
   ],
   "note": "References resolve when no diagnostic is reported"
  },
  {
   "property": "C19",
   "status": "proved",
   "theorems": [
    "C19_duplicates_reported"
   ],
   "note": "Duplicate definitions are reported"
  },
  {
   "property": "C20",
   "status": "proved",
   "theorems": [
    "C20_first_definition_wins"
   ],
   "note": "The first definition wins and nothing is ever unbound"
  },
  {
   "property": "C21",
   "status": "proved",
   "theorems": [
    "C21_integer_literals",
    "C21_out_of_range_reported"
   ],
   "note": "Integer literals have the numeral's value"
  },
  {
   "property": "C22",
   "status": "proved",
   "theorems": [
    "C22_range_bounds"
   ],
   "note": "Range bounds have one kind"
  },
  {
   "property": "C23",
   "status": "proved",
   "theorems": [
    "C23_right_nested",
    "C23_trees"
   ],
   "note": "Choice operators nest to the right with one precedence"
  },
  {
   "property": "C24",
   "status": "proved",
   "theorems": [
    "C24_brackets",
    "C24_trees"
   ],
   "note": "Groups and arrays keep exactly the group-entry nodes"
  },
  {
   "property": "C25",
   "status": "proved",
   "theorems": [
    "C25_comparators",
    "C25_accepted"
   ],
   "note": "Comparator nodes"
  },
  {
   "property": "C26",
   "status": "proved",
   "theorems": [
    "C26_positions",
    "C26_reports",
    "C26_foreign",
    "C26_lines"
   ],
   "note": "Diagnostics point into the source and are all printed"
  },
  {
   "property": "C27",
   "status": "proved",
   "theorems": [
    "C27_result_shape",
    "C27_nil_only_if"
   ],
   "note": "Result shape of ParseFile"
  },
  {
   "property": "C28",
   "status": "proved",
   "theorems": [
    "C28_tokens_only"
   ],
   "note": "Later lexer errors are never reported by the parser"
  },
  {
   "property": "C29",
   "status": "proved",
   "theorems": [
    "C29_all_rules_kept",
    "C29_next_token_lost"
   ],
   "note": "Every top level rule is kept unless a trailing comment precedes it"
  },
  {
   "property": "C30",
   "status": "proved",
   "theorems": [
    "C30_positions"
   ],
   "note": "Node positions are token positions"
  },
  {
   "property": "C31",
   "status": "proved",
   "theorems": [
    "C31_write_once"
   ],
   "note": "Environment behaves as a write-once map"
  },
  {
   "property": "C32",
   "status": "proved",
   "theorems": [
    "C32_session",
    "C32_never_removed",
    "C32_tree_command"
   ],
   "note": "REPL sessions accumulate definitions"
  },
  {
   "property": "C33",
   "status": "proved",
   "theorems": [
    "C33_preorder",
    "C33_unique",
    "C33_complete"
   ],
   "note": "Walk visits in pre-order"
  },
  {
   "property": "C34",
   "status": "proved",
   "theorems": [
    "C34_crash_iff",
    "C34_returned",
    "C34_plain_sources"
   ],
   "note": "Walk crashes exactly on unknown node kinds"
  },
  {
   "property": "C35",
   "status": "proved",
   "theorems": [
    "C35_calls",
    "C35_pruned",
    "C35_rest"
   ],
   "note": "Pruning skips exactly the subtree"
  },
  {
   "property": "C36",
   "status": "proved",
   "theorems": [
    "C36_names_unique",
    "C36_file"
   ],
   "note": "One declaration and one Valid method per rule"
  },
  {
   "property": "C37",
   "status": "proved",
   "theorems": [
    "C37_group",
    "C37_array",
    "C37_built"
   ],
   "note": "Struct fields follow group entries"
  },
  {
   "property": "C38",
   "status": "proved",
   "theorems": [
    "C38_crash_iff",
    "C38_unsupported",
    "C38_parsed"
   ],
   "note": "Code generation crashes exactly on unsupported nodes"
  },
  {
   "property": "C39",
   "status": "proved",
   "theorems": [
    "C39_imports"
   ],
   "note": "Validator imports"
  },
  {
   "property": "C40",
   "status": "proved",
   "theorems": [
    "C40_calls",
    "C40_rule"
   ],
   "note": "Validators of a rule"
  },
  {
   "property": "C41",
   "status": "proved",
   "theorems": [
    "C41_integers",
    "C41_floats",
    "C41_nan",
    "C41_consistent",
    "C41_every_pattern"
   ],
   "note": "Range validators"
  },
  {
   "property": "C42",
   "status": "proved",
   "theorems": [
    "C42_header",
    "C42_only_output",
    "C42_output",
    "C42_diagnostics",
    "C42_command",
    "C42_stops",
    "C42_all_outputs",
    "C42_build_outputs"
   ],
   "note": "generate truncates the output before it knows the source parses"
  },
  {
   "property": "C43",
   "status": "proved",
   "theorems": [
    "C43_exists",
    "C43_creates",
    "C43_only_config",
    "C43_possible",
    "C43_twice"
   ],
   "note": "init never overwrites"
  },
  {
   "property": "C44",
   "status": "proved",
   "theorems": [
    "C44_first",
    "C44_names",
    "C44_shadowed"
   ],
   "note": "Configuration selection"
  },
  {
   "property": "C45",
   "status": "proved",
   "theorems": [
    "C45_lines",
    "C45_undecodable"
   ],
   "note": "lex command counts illegal characters"
  },
  {
   "property": "C46",
   "status": "proved",
   "theorems": [
    "C46_uint_numerals",
    "C46_int_numerals",
    "C46_round_trip",
    "C46_round_trip_uint"
   ],
   "note": "Integer numerals round trip"
  },
  {
   "property": "C47",
   "status": "proved",
   "theorems": [
    "C47_no_tree_unless_decodable"
   ],
   "note": "Undecodable sources never yield a tree"
  },
  {
   "property": "C48",
   "status": "proved",
   "theorems": [
    "C48_entry_unambiguous",
    "C48_file_unambiguous"
   ],
   "note": "The accepted language is unambiguous"
  },
  {
   "property": "C49",
   "status": "proved",
   "theorems": [
    "C49_format_crashes_iff",
    "C49_tree_command_never_crashes"
   ],
   "note": "The tree printer never crashes on parsed definitions"
  },
  {
   "property": "C50",
   "status": "proved",
   "theorems": [
    "C50_verbose_crash",
    "C50_verbose_flag"
   ],
   "note": "Verbose REPL crashes on early lexer errors"
  },
  {
   "property": "C51",
   "status": "proved",
   "theorems": [
    "C51_type_only",
    "C51_crash_iff",
    "C51_text",
    "C51_content_refuted"
   ],
   "note": "CheckSize looks at the type only"
  },
  {
   "property": "C52",
   "status": "proved",
   "theorems": [
    "C52_self"
   ],
   "note": "Generated checks name a variable that is not bound"
  },
  {
   "property": "C53",
   "status": "proved",
   "theorems": [
    "C53_unused_import"
   ],
   "note": "Nested size constraints give an unused import"
  },
  {
   "property": "C54",
   "status": "proved",
   "theorems": [
    "C54_variable_method",
    "C54_text_unquoted"
   ],
   "note": "Literal rules become variables with methods"
  },
  {
   "property": "C55",
   "status": "proved",
   "theorems": [
    "C55_twice",
    "C55_without_imports"
   ],
   "note": "Writing the generated file is not repeatable"
  },
  {
   "property": "C56",
   "status": "proved",
   "theorems": [
    "C56_no_conversion"
   ],
   "note": "No case conversion is valid"
  },
  {
   "property": "C57",
   "status": "proved",
   "theorems": [
    "C57_early_lexer_error"
   ],
   "note": "An early lexer error crashes generate after it has emptied the output"
  },
  {
   "property": "C58",
   "status": "proved",
   "theorems": [
    "C58_sources_safe"
   ],
   "note": "generate never changes sources or configuration"
  },
  {
   "property": "C59",
   "status": "proved",
   "theorems": [
    "C59_default_package"
   ],
   "note": "The default configuration generates an unnamed package"
  },
  {
   "property": "C60",
   "status": "proved",
   "theorems": [
    "C60_repeatable"
   ],
   "note": "Generating a file again changes nothing"
  },
  {
   "property": "C61",
   "status": "proved",
   "theorems": [
    "C61_null_build",
    "C61_no_output"
   ],
   "note": "Degenerate builds"
  },
  {
   "property": "C62",
   "status": "proved",
   "theorems": [
    "C62_status"
   ],
   "note": "parse succeeds on sources with errors"
  },
  {
   "property": "C63",
   "status": "proved",
   "theorems": [
    "C63_position",
    "C63_position_text",
    "C63_position_no_column",
    "C63_range",
    "C63_lex_output",
    "C63_lex_lines",
    "C63_error_list_range",
    "C63_error_list_text",
    "C63_diagnostic"
   ],
   "note": "Printed tokens, positions and diagnostics identify what they print"
  },
  {
   "property": "C64",
   "status": "proved",
   "theorems": [
    "C64_bound_is_read_again",
    "C64_item_is_never_a_type",
    "C64_array"
   ],
   "note": "The upper bound of an occurrence is read again as its item"
  },
  {
   "property": "C65",
   "status": "proved",
   "theorems": [
    "C65_declared",
    "C65_diagnostics",
    "C65_crash",
    "C65_total"
   ],
   "note": "Exact diagnostics of documents of the grammar"
  },
  {
   "property": "C66",
   "status": "proved",
   "theorems": [
    "C66_unique",
    "C66_scan",
    "C66_crash",
    "C66_tokens"
   ],
   "note": "The whole lexical grammar"
  },
  {
   "property": "C67",
   "status": "proved",
   "theorems": [
    "C67_leaves",
    "C67_no_uint_nodes"
   ],
   "note": "Where nodes of one token start and end"
  },
  {
   "property": "C68",
   "status": "proved",
   "theorems": [
    "C68_entries",
    "C68_rules"
   ],
   "note": "Where entries start"
  },
  {
   "property": "C69",
   "status": "proved",
   "theorems": [
    "C69_ends",
    "C69_order",
    "C69_root"
   ],
   "note": "Where nodes end"
  },
  {
   "property": "C70",
   "status": "proved",
   "theorems": [
    "C70_lines",
    "C70_trim"
   ],
   "note": "How the REPL reads its input"
  },
  {
   "property": "C71",
   "status": "proved",
   "theorems": [
    "C71_turn",
    "C71_session",
    "C71_silent",
    "C71_same_session",
    "C71_same_output",
    "C71_no_verbs"
   ],
   "note": "The REPL's transcript"
  },
  {
   "property": "C72",
   "status": "proved",
   "theorems": [
    "C72_names",
    "C72_init",
    "C72_generate",
    "C72_generate_report",
    "C72_generate_notice",
    "C72_lex",
    "C72_parse",
    "C72_parse_crash",
    "C72_arguments",
    "C72_repl",
    "C72_doctor"
   ],
   "note": "Exit status and output of the commands"
  },
  {
   "property": "C73",
   "status": "proved",
   "theorems": [
    "C73_printed",
    "C73_fails",
    "C73_text_tells_tree",
    "C73_command",
    "C73_text_refuted"
   ],
   "note": "The tree parse prints"
  },
  {
   "property": "C74",
   "status": "proved",
   "theorems": [
    "C74_reads",
    "C74_functional",
    "C74_command",
    "C74_refused"
   ],
   "note": "Reading a JSON configuration"
  },
  {
   "property": "C75",
   "status": "proved",
   "theorems": [
    "C75_round_trip",
    "C75_init_text",
    "C75_init_generate"
   ],
   "note": "Configurations survive writing and reading"
  },
  {
   "property": "C76",
   "status": "proved",
   "theorems": [
    "C76_lines",
    "C76_total",
    "C76_session"
   ],
   "note": "The REPL reads the lines that were typed"
  },
  {
   "property": "C77",
   "status": "proved",
   "theorems": [
    "C77_accepts",
    "C77_refuses",
    "C77_total"
   ],
   "note": "Which configurations are valid"
  },
  {
   "property": "C78",
   "status": "proved",
   "theorems": [
    "C78_iff",
    "C78_odd_names",
    "C78_literal",
    "C78_size"
   ],
   "note": "Which generated files the Go compiler accepts"
  },
  {
   "property": "C79",
   "status": "proved",
   "theorems": [
    "C79_true",
    "C79_never"
   ],
   "note": "What diagnostics say is so"
  },
  {
   "property": "C80",
   "status": "proved",
   "theorems": [
    "C80_message",
    "C80_error",
    "C80_list",
    "C80_place"
   ],
   "note": "The texts of diagnostics"
  },
  {
   "property": "C81",
   "status": "proved",
   "theorems": [
    "C81_text",
    "C81_reads_back"
   ],
   "note": "The text of the tree printer"
  },
  {
   "property": "C82",
   "status": "proved",
   "theorems": [
    "C82_items_refuted",
    "C82_arrays_refuted",
    "C82_hidden_refuted",
    "C82_private_refuted",
    "C82_nil_refuted",
    "C82_utf8_refuted",
    "C82_sound"
   ],
   "note": "Values of generated types are written as data the rules describe"
  },
  {
   "property": "C83",
   "status": "proved",
   "theorems": [
    "C83_optional_refuted",
    "C83_range_refuted",
    "C83_complete"
   ],
   "note": "Described data have values"
  },
  {
   "property": "C84",
   "status": "proved",
   "theorems": [
    "C84_tokens",
    "C84_layout",
    "C84_gap",
    "C84_comment_refuted"
   ],
   "note": "Layout does not matter, except for the lines of comments"
  },
  {
   "property": "C85",
   "status": "proved",
   "theorems": [
    "C85_append",
    "C85_last_refuted"
   ],
   "note": "Appending lines affects the last rule only"
  },
  {
   "property": "C86",
   "status": "proved",
   "theorems": [
    "C86_concat",
    "C86_comment_refuted",
    "C86_socket_refuted"
   ],
   "note": "Accepted sources can be concatenated"
  },
  {
   "property": "C87",
   "status": "proved",
   "theorems": [
    "C87_order",
    "C87_starts_refuted",
    "C87_bounds",
    "C87_start_refuted"
   ],
   "note": "The order of diagnostics"
  },
  {
   "property": "C88",
   "status": "proved",
   "theorems": [
    "C88_order",
    "C88_twice_refuted",
    "C88_comment_refuted"
   ],
   "note": "The order of rules does not matter"
  },
  {
   "property": "C89",
   "status": "proved",
   "theorems": [
    "C89_tokens",
    "C89_names",
    "C89_spaced",
    "C89_accepted",
    "C89_merged_refuted",
    "C89_dollar_refuted"
   ],
   "note": "Names do not matter"
  },
  {
   "property": "C90",
   "status": "proved",
   "theorems": [
    "C90_tree",
    "C90_layout",
    "C90_comments",
    "C90_delete",
    "C90_comma_refuted",
    "C90_moved_refuted"
   ],
   "note": "Reformatting does not change the generated file"
  },
  {
   "property": "C91",
   "status": "proved",
   "theorems": [
    "C91_file",
    "C91_silent",
    "C91_forward_refuted",
    "C91_early_refuted",
    "C91_comment_refuted"
   ],
   "note": "A session of the REPL and the file of its lines"
  },
  {
   "property": "C92",
   "status": "proved",
   "theorems": [
    "C92_cddl",
    "C92_common",
    "C92_print",
    "C92_complete_refuted",
    "C92_sound_refuted"
   ],
   "note": "The accepted language and the grammar of RFC 8610"
  },
  {
   "property": "C93",
   "status": "proved",
   "theorems": [
    "C93_forgets",
    "C93_sources",
    "C93_rewrite",
    "C93_extend_refuted"
   ],
   "note": "What the tree keeps of a document"
  },
  {
   "property": "C94",
   "status": "proved",
   "theorems": [
    "C94_reads",
    "C94_needs",
    "C94_agree",
    "C94_parser",
    "C94_always_refuted"
   ],
   "note": "Grouping of operators compared with RFC 8610"
  },
  {
   "property": "C95",
   "status": "proved",
   "theorems": [
    "C95_pieces",
    "C95_leave_out",
    "C95_generated",
    "C95_used_refuted"
   ],
   "note": "The generated file is made piece by piece, and unused rules can be left out"
  },
  {
   "property": "C96",
   "status": "proved",
   "theorems": [
    "C96_back",
    "C96_distinct",
    "C96_described",
    "C96_only",
    "C96_null_refuted",
    "C96_bytes_refuted",
    "C96_optional_refuted",
    "C96_range_refuted"
   ],
   "note": "Reading data into generated types"
  },
  {
   "property": "C97",
   "status": "proved",
   "theorems": [
    "C97_group_text",
    "C97_group_text_determines",
    "C97_ident_text",
    "C97_comments_said",
    "C97_group",
    "C97_single",
    "C97_empty_line_refuted",
    "C97_file_text_refuted"
   ],
   "note": "Comments keep their text"
  },
  {
   "property": "C98",
   "status": "proved",
   "theorems": [
    "C98_build",
    "C98_command",
    "C98_default",
    "C98_end_to_end",
    "C98_apart_refuted"
   ],
   "note": "When generate succeeds"
  },
  {
   "property": "C99",
   "status": "proved",
   "theorems": [
    "C99_values",
    "C99_found",
    "C99_defined",
    "C99_after",
    "C99_cascade"
   ],
   "note": "How the parser finds its way back after an error"
  },
  {
   "property": "C100",
   "status": "proved",
   "theorems": [
    "C100_tokens",
    "C100_bytes",
    "C100_all_reported",
    "C100_reached",
    "C100_all_reached"
   ],
   "note": "What the parser makes is no larger than the source"
  },
  {
   "property": "C101",
   "status": "proved",
   "theorems": [
    "C101_same",
    "C101_ends",
    "C101_bound",
    "C101_missing",
    "C101_existing",
    "C101_larger",
    "C101_socket_refuted",
    "C101_ends_refuted"
   ],
   "note": "What the environment changes in a parse"
  },
  {
   "property": "C102",
   "status": "proved",
   "theorems": [
    "C102_literals",
    "C102_accepted",
    "C102_large_refuted"
   ],
   "note": "Values of literals and texts of comments do not matter to the parser"
  },
  {
   "property": "C103",
   "status": "proved",
   "theorems": [
    "C103_moved",
    "C103_diagnostics",
    "C103_indent_refuted"
   ],
   "note": "Blank lines before a source move everything by as much"
  },
  {
   "property": "C104",
   "status": "proved",
   "theorems": [
    "C104_parsed",
    "C104_generated"
   ],
   "note": "The texts of comments change neither the generated file nor a diagnostic"
  },
  {
   "property": "C105",
   "status": "proved",
   "theorems": [
    "C105_generate",
    "C105_process"
   ],
   "note": "Reformatting the sources of a project does not change what generate leaves"
  },
  {
   "property": "C106",
   "status": "proved",
   "theorems": [
    "C106_again",
    "C106_source_refuted",
    "C106_config_refuted"
   ],
   "note": "Running generate again changes nothing"
  },
  {
   "property": "C107",
   "status": "proved",
   "theorems": [
    "C107_reads",
    "C107_process"
   ],
   "note": "generate reads the texts of sources and of the configuration only"
  },
  {
   "property": "C108",
   "status": "proved",
   "theorems": [
    "C108_header",
    "C108_generated",
    "C108_early_refuted"
   ],
   "note": "Comment lines at the top of a source are harmless"
  },
  {
   "property": "C109",
   "status": "proved",
   "theorems": [
    "C109_apart",
    "C109_adjacent_refuted",
    "C109_capacity_refuted"
   ],
   "note": "Lexers over pieces of one buffer"
  },
  {
   "property": "C110",
   "status": "proved",
   "theorems": [
    "C110_again"
   ],
   "note": "Calling ParseFile again"
  },
  {
   "property": "C111",
   "status": "proved",
   "theorems": [
    "C111_line_ends",
    "C111_reports",
    "C111_generated",
    "C111_open_refuted"
   ],
   "note": "Line endings do not matter"
  },
  {
   "property": "C112",
   "status": "proved",
   "theorems": [
    "C112_stray",
    "C112_refused",
    "C112_beyond_ascii",
    "C112_generate",
    "C112_early_refuted"
   ],
   "note": "A byte order mark at the start of a source costs one diagnostic"
  },
  {
   "property": "C113",
   "status": "proved",
   "theorems": [
    "C113_links",
    "C113_opened",
    "C113_later",
    "C113_calls",
    "C113_unmodified",
    "C113_every",
    "C113_preorder",
    "C113_endless_refuted"
   ],
   "note": "Walk with visitors that modify the tree"
  },
  {
   "property": "C114",
   "status": "proved",
   "theorems": [
    "C114_in_turn",
    "C114_grows",
    "C114_again",
    "C114_recheck",
    "C114_file",
    "C114_order_refuted"
   ],
   "note": "Parsers that share an environment"
  },
  {
   "property": "C115",
   "status": "proved",
   "theorems": [
    "C115_build",
    "C115_command",
    "C115_refused"
   ],
   "note": "An output directory that cannot be there"
  }
 ]
}