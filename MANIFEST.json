{
 "claims": [
  {
   "property": "C01",
   "status": "proved",
   "theorems": [
    "C01_peg_semantics",
    "C01_unique_answer"
   ],
   "note": ""
  },
  {
   "property": "C02",
   "status": "proved",
   "theorems": [
    "C02_repeat_counts",
    "C02_repeat_runs"
   ],
   "note": ""
  },
  {
   "property": "C03",
   "status": "proved",
   "theorems": [
    "C03_lookahead",
    "C03_lookaheadN",
    "C03_lookbehind",
    "C03_leaves",
    "C03_zero"
   ],
   "note": "Start, End and WordBoundary keep Position and the stack; they set SourcePosition.Length to 0."
  },
  {
   "property": "C04",
   "status": "proved",
   "theorems": [
    "C04_failed_alternatives",
    "C04_first_match_wins",
    "C04_no_alternative",
    "C04_sequence_rolls_back",
    "C02_repeat_counts"
   ],
   "note": "The clause about a failing iteration is the position/stack part of C02_repeat_counts."
  },
  {
   "property": "C05",
   "status": "proved",
   "theorems": [
    "C05_errors_cut"
   ],
   "note": ""
  },
  {
   "property": "C06",
   "status": "proved",
   "theorems": [
    "C06_status_iff_error",
    "C06_library_grammars",
    "C06_base_parser_refuted"
   ],
   "note": "For BaseParser called directly with an implementation function the claim is false: C06_base_parser_refuted."
  },
  {
   "property": "C07",
   "status": "proved",
   "theorems": [
    "C07_source_unchanged",
    "C07_library_grammars"
   ],
   "note": ""
  },
  {
   "property": "C08",
   "status": "proved",
   "theorems": [
    "C08_position_in_bounds",
    "C08_string_grammars",
    "C08_object_grammars"
   ],
   "note": ""
  },
  {
   "property": "C09",
   "status": "proved",
   "theorems": [
    "C09_match_only_pushes",
    "C09_library_grammars"
   ],
   "note": ""
  },
  {
   "property": "C10",
   "status": "proved",
   "theorems": [
    "C10_no_panic",
    "C10_string_grammars",
    "C10_transformers"
   ],
   "note": "Transformers that do panic (Exchange, ParseUint on the empty string) are shown by examples."
  },
  {
   "property": "C11",
   "status": "proved",
   "theorems": [
    "C11_terminates",
    "C11_library_leaves",
    "C11_zero_width_diverges"
   ],
   "note": "Rules may refer to rules with a smaller index (acyclic use of Indirect)."
  },
  {
   "property": "C12",
   "status": "proved",
   "theorems": [
    "C12_past_is_irrelevant"
   ],
   "note": ""
  },
  {
   "property": "C13",
   "status": "proved",
   "theorems": [
    "C13_copy_semantics",
    "C13_whole_parse",
    "C13_saved_stacks_survive",
    "C13_library_leaves",
    "C13_library_transformers",
    "C13_production_rule"
   ],
   "note": "Refinement of the list model by a heap model with arrays, slice headers, in-place append and an arbitrary growth policy. Transformers may even write into their argument slice. When a parser returns an error the contents of the returned stack are not compared. Slices that a transformer keeps inside an AST value are values in the model (no library transformer keeps its argument slice)."
  },
  {
   "property": "C14",
   "status": "partial",
   "theorems": [
    "C14_match_backtracking_refuted",
    "C14_copy_semantics_refuted",
    "C14_match_reach_partial"
   ],
   "note": "False as stated: a Match(1) inside a failing alternative of First rewrites an AST of the shared array in place (refuted with a witness, for every growth policy). Proved instead: grammars in which no alternative rewrites ASTs below its own pushes before failing (relation reach) behave as with copied stacks."
  },
  {
   "property": "C15",
   "status": "proved",
   "theorems": [
    "C15_character_parsers",
    "C15_next_char_unique",
    "C15_character_lists"
   ],
   "note": ""
  },
  {
   "property": "C16",
   "status": "proved",
   "theorems": [
    "C16_seq",
    "C16_char_class",
    "C16_char_classN",
    "C16_seqi"
   ],
   "note": ""
  },
  {
   "property": "C17",
   "status": "proved",
   "theorems": [
    "C17_no_text_lost",
    "C17_transformers",
    "C17_seqi_mid_character_refuted"
   ],
   "note": "SeqI literals with U+FFFD are excluded: C17_seqi_mid_character_refuted shows why."
  },
  {
   "property": "C18",
   "status": "proved",
   "theorems": [
    "C18_character_boundaries",
    "C17_seqi_mid_character_refuted"
   ],
   "note": ""
  },
  {
   "property": "C19",
   "status": "partial",
   "theorems": [
    "C19_word_boundary_partial",
    "C19_unicode_word_boundary_partial",
    "C19_word_boundary_exact",
    "C19_unicode_word_boundary_exact",
    "C19_word_boundary_refuted"
   ],
   "note": "False as stated: lead bytes F1, F2, F4 are not recognised (C19_word_boundary_refuted). Proved when the previous character is in a known plane; the exact theorems state for every input which character the code takes for the previous one."
  },
  {
   "property": "C20",
   "status": "proved",
   "theorems": [
    "C20_concat",
    "C20_concat_fails",
    "C20_trim",
    "C20_trim_start",
    "C20_trim_end",
    "C20_trim_unique"
   ],
   "note": ""
  },
  {
   "property": "C21",
   "status": "partial",
   "theorems": [
    "C21_parse_int",
    "C21_parse_uint_partial",
    "C21_numeral_unique",
    "C21_parse_uint_exact",
    "C21_int_error",
    "C21_uint_error",
    "C21_parse_uint_refuted"
   ],
   "note": "ParseUint panics on the empty text (C21_parse_uint_refuted); everything else is proved, including which error a text that is no number causes, for bases 2..36 here and for base 0 and the refused bases in C59."
  },
  {
   "property": "C22",
   "status": "partial",
   "theorems": [
    "C22_string_from_int_partial",
    "C22_string_from_rune",
    "C22_round_trip",
    "C22_string_from_int_exact",
    "C22_int_from_rune_tag_refuted",
    "C22_string_from_int_refuted"
   ],
   "note": "IntFromRune tags an integer as String; StringFromInt truncates to int32. Proved inside the int32 range; outside of it C22_string_from_int_exact says which rune comes out."
  },
  {
   "property": "C23",
   "status": "partial",
   "theorems": [
    "C23_erase",
    "C23_first_element",
    "C23_ends",
    "C23_exchange_refuted",
    "C23_roll_refuted"
   ],
   "note": "Exchange panics and Roll does nothing; the other transformers are proved."
  },
  {
   "property": "C24",
   "status": "partial",
   "theorems": [
    "C24_prepend_partial",
    "C24_push_partial",
    "C24_prepend_stale",
    "C24_push_stale",
    "C24_refuted"
   ],
   "note": "False for empty lists: the position of an earlier call leaks. Proved for non-empty lists, and the leaked value is characterised."
  },
  {
   "property": "C25",
   "status": "proved",
   "theorems": [
    "C25_group_flatgroup"
   ],
   "note": ""
  },
  {
   "property": "C26",
   "status": "partial",
   "theorems": [
    "C26_any",
    "C26_obj_class",
    "C26_obj_classN",
    "C26_obj_classFn",
    "C26_end",
    "C26_exclusive",
    "C26_seq_partial",
    "C26_seq_refuted"
   ],
   "note": "Seq is false as stated: it ignores its arguments' values (C26_seq_refuted); what it does is C26_seq_partial. All others proved."
  },
  {
   "property": "C27",
   "status": "proved",
   "theorems": [
    "C27_symmetric",
    "C27_transitive",
    "C27_reflexive",
    "C27_ignores_positions",
    "C27_equal",
    "C27_panics",
    "C27_deep"
   ],
   "note": ""
  },
  {
   "property": "C28",
   "status": "proved",
   "theorems": [
    "C28_production_rule",
    "C28_deterministic",
    "C28_result_checked",
    "C28_grammar_rules"
   ],
   "note": ""
  },
  {
   "property": "C29",
   "status": "proved",
   "theorems": [
    "C29_shrinking_terminates"
   ],
   "note": ""
  },
  {
   "property": "C30",
   "status": "proved",
   "theorems": [
    "C30_line_and_column",
    "C30_lines_exist",
    "C30_rest_exists",
    "C30_no_panic"
   ],
   "note": ""
  },
  {
   "property": "C31",
   "status": "proved",
   "theorems": [
    "C31_binary",
    "C31_octal",
    "C31_hexadecimal",
    "C31_where"
   ],
   "note": ""
  },
  {
   "property": "C32",
   "status": "proved",
   "theorems": [
    "C32_integer",
    "C32_where",
    "C32_value"
   ],
   "note": ""
  },
  {
   "property": "C33",
   "status": "partial",
   "theorems": [
    "C33_float",
    "C33_numeric",
    "C33_acceptable_partial",
    "C33_acceptable_refuted"
   ],
   "note": "Matching, maximal consumption and the returned text are proved for the grammar of the code. Acceptability of the text to a decimal float parser is proved when the mantissa has a digit and refuted otherwise: both parsers accept '._' and return '.'."
  },
  {
   "property": "C34",
   "status": "proved",
   "theorems": [
    "C34_ascii",
    "C34_unicode"
   ],
   "note": "The Unicode tables are arbitrary; the hypothesis is that U+FFFD is in neither class (true of Unicode), since malformed bytes are read as U+FFFD."
  },
  {
   "property": "C35",
   "status": "proved",
   "theorems": [
    "C35_date",
    "C35_time",
    "C35_date_time",
    "C35_fixed_format"
   ],
   "note": ""
  },
  {
   "property": "C36",
   "status": "partial",
   "theorems": [
    "C36_round_trip_refuted",
    "C36_what_comes_back",
    "C36_round_trip_iff"
   ],
   "note": "The documented round trip is false: double quotes in quoted cells, space around cells, malformed bytes, and rows without text are lost, and a cell starting with a double quote cannot be read back (refuted with witnesses). Proved instead, for all tables: exactly what comes back, and that the unchanged tables are exactly those of safe_table."
  },
  {
   "property": "C37",
   "status": "proved",
   "theorems": [
    "C37_csv_total",
    "C37_csv_reading"
   ],
   "note": "Every byte string is answered with a table or an error, and the answer is the one given by the parser-free reading relation read_csv (total and deterministic). The messages are in C57."
  },
  {
   "property": "C38",
   "status": "partial",
   "theorems": [
    "C38_formula_value",
    "C38_exact_value",
    "C38_only_formulas",
    "C38_smallest_refuted"
   ],
   "note": "Every formula with literals below 2^63 that does not divide by zero is answered with its value (precedence, left associativity, wrapping int64); every answered value is the value of a formula. Refuted at the edge: -9223372036854775808 is an error although the value exists. Formulas that divide by zero: see C39."
  },
  {
   "property": "C39",
   "status": "partial",
   "theorems": [
    "C39_total_but_for_division",
    "C39_divides",
    "C39_total_refuted"
   ],
   "note": "Refuted: 1/0 and (1/0 panic. Apart from texts containing an expression that divides by zero, every byte string is answered with a value or an error, with bounded fuel."
  },
  {
   "property": "C40",
   "status": "partial",
   "theorems": [
    "C40_postfix",
    "C40_total",
    "C40_only_formulas",
    "C40_machine",
    "C40_machine_det",
    "C40_unambiguous_partial",
    "C40_ambiguous_refuted"
   ],
   "note": "Parse is total and answers exactly with the postfix form; where minus signs stand only before literals the postfix form evaluates to the value on a stack machine and determines it. Refuted in general: 5-(-(1+2)) and -(5-(1+2)) both give [5 1 2 + - -]. The in-place append of transformUnaryOp is modelled as list concatenation here; that this is faithful is C65."
  },
  {
   "property": "C41",
   "status": "proved",
   "theorems": [
    "C41_identity",
    "C41_visits_exist",
    "C41_calls",
    "C41_log_is_transparent",
    "C41_error_reaches_every_ancestor",
    "C41_no_panic",
    "C41_backward_jump_panics"
   ],
   "note": "every behaviour of the callbacks; a negative pcIncr can make Traverse panic, as C41_backward_jump_panics shows"
  },
  {
   "property": "C42",
   "status": "partial",
   "theorems": [
    "C42_transparent",
    "C42_transparent_grammar",
    "C42_nested_events",
    "C42_events_report_the_call",
    "C42_before_panics",
    "C42_after_panics",
    "C42_failed_sequence",
    "C42_missed_alternatives",
    "C42_rules_in_place",
    "C42_configuration_restored",
    "C42_tracking_numbers",
    "C42_everything_is_traced",
    "C42_silent_when_off",
    "C42_indirect_rules_refuted",
    "C42_meddling_tracer_refuted",
    "C42_panic_nil_refuted"
   ],
   "note": "Transparency holds for tracers that only look; a tracer that writes through the context pointer changes results (C42_meddling_tracer_refuted). Rules behind Indirect are built after the configuration is restored and are not traced (C42_indirect_rules_refuted). Where recover() returns nil for panic(nil) (go.mod says 1.17), a parser that panics with nil matches when it is traced (C42_panic_nil_refuted). The events of the parsers that ProductionRule runs are part of the log, and tracers may panic."
  },
  {
   "property": "C43",
   "status": "proved",
   "theorems": [
    "C43_no_nil_call",
    "C43_schedule_independent",
    "C43_result_of_some_instance",
    "C43_built_once_set",
    "C43_no_waiting",
    "C43_unsynchronised_refuted"
   ],
   "note": "For atomic reads and writes, as the property says; the code has no synchronisation, C43_unsynchronised_refuted shows what the Go memory model then allows."
  },
  {
   "property": "C44",
   "status": "partial",
   "theorems": [
    "C44_positions_partial",
    "C44_entry_position_partial",
    "C44_both_fields_partial",
    "C44_length_refuted",
    "C44_group_position_refuted"
   ],
   "note": "Position is right; Length is the previous token's length (C44_length_refuted); Group ASTs have the zero position. C44_both_fields_partial says exactly which Position and Length every AST of a run carries."
  },
  {
   "property": "C45",
   "status": "partial",
   "theorems": [
    "C45_marshal_cells_partial",
    "C45_marshal_any_order_partial",
    "C45_marshal_total",
    "C45_unmarshal_fields_partial",
    "C45_unmarshal_total_partial",
    "C45_unmarshal_rows",
    "C45_unmarshal_errors",
    "C45_round_trip_partial",
    "C45_marshal_exact",
    "C45_marshal_every_order",
    "C45_marshal_order_result",
    "C45_marshal_panics_exact",
    "C45_unmarshal_exact",
    "C45_unmarshal_fault",
    "C45_unmarshal_every_fault",
    "C45_unmarshal_one_struct",
    "C45_any_order_refuted",
    "C45_other_columns_empty_refuted",
    "C45_marshal_panics_refuted",
    "C45_unmarshal_panics_refuted",
    "C45_unmarshal_wrong_refuted"
   ],
   "note": "The statement as documented is false: a field that is not listed in cols overwrites column 0, so the result depends on the map order and unowned columns are not empty; Marshal panics without columns; Unmarshal panics on short rows and unexported fields, truncates integers and reads an empty header cell into every untagged field (all proved). Proved in their place: with every field's column listed Marshal writes exactly the cells described, in any map order; Unmarshal reads the fields described; the round trip restores the rows; neither panics under the stated conditions. Without those conditions: Marshal writes exactly what the fields write in some order, every order is possible, and it panics exactly if there is something to write and no column; Unmarshal returns exactly the structs described, and otherwise the first bad row explains the error or panic, each of its faults being the result for some map order. Floats are rendered and read by arbitrary functions."
  },
  {
   "property": "C46",
   "status": "partial",
   "theorems": [
    "C46_get_any",
    "C46_get_typed",
    "C46_other_accessor",
    "C46_other_keys",
    "C46_not_initialised",
    "C46_interface_map_refuted",
    "C46_nil_refuted"
   ],
   "note": "True for GetAny and for the accessor of the element type of the map. False as stated for a map with element type interface{} read by a typed accessor (GetInt panics, GetString returns another text), and for SetAny(nil), which deletes the key."
  },
  {
   "property": "C47",
   "status": "proved",
   "theorems": [
    "C47_to_slice",
    "C47_to_slice_panics",
    "C47_grouping",
    "C47_transform_error"
   ],
   "note": ""
  },
  {
   "property": "C48",
   "status": "proved",
   "theorems": [
    "C48_rewrites_top",
    "C48_no_case",
    "C48_inversion",
    "C48_short_stack_panics",
    "C48_case_matchers",
    "C48_never_equal"
   ],
   "note": ""
  },
  {
   "property": "C49",
   "status": "proved",
   "theorems": [
    "C49_calendar",
    "C49_parse_date",
    "C49_date_token",
    "C49_panics"
   ],
   "note": "time.Parse is modelled for the two layouts that occur; the calendar is specified by its succession of days. Holds for both behaviours of Go's offset check."
  },
  {
   "property": "C50",
   "status": "proved",
   "theorems": [
    "C50_parse_time",
    "C50_time_token"
   ],
   "note": ""
  },
  {
   "property": "C51",
   "status": "proved",
   "theorems": [
    "C51_parse_date_time",
    "C51_date_time_token"
   ],
   "note": ""
  },
  {
   "property": "C52",
   "status": "partial",
   "theorems": [
    "C52_dates",
    "C52_times",
    "C52_total_refuted"
   ],
   "note": "False as stated: 10000-01-01, -0001-01-01, 23:59:60 and 24:00 are accepted by the token parsers and rejected by the conversions. Proved instead: exactly which accepted tokens are converted."
  },
  {
   "property": "C53",
   "status": "proved",
   "theorems": [
    "C53_get",
    "C53_set",
    "C53_set_panics",
    "C53_reslice",
    "C53_reslice_panics",
    "C53_copy",
    "C53_make",
    "C53_copy_panics",
    "C53_make_panics"
   ],
   "note": "The bound of Reslice and Copy is the capacity, so both may expose elements beyond the length; C53_copy states the contents for end <= length."
  },
  {
   "property": "C54",
   "status": "proved",
   "theorems": [
    "C54_parse_float",
    "C54_float_token",
    "C54_numeric_token",
    "C54_numbers",
    "C54_value_unique",
    "C54_rounded_unique",
    "C54_digitless_token"
   ],
   "note": "strconv.ParseFloat is modelled for decimal texts by exact arithmetic; hexadecimal, inf, nan and underscore texts are a parameter. The number token without a digit found in C33 ends in a syntax error here."
  },
  {
   "property": "C55",
   "status": "partial",
   "theorems": [
    "C55_ascii",
    "C55_unicode_partial",
    "C55_word_characters",
    "C55_unicode_refuted"
   ],
   "note": "True for ASCII identifiers and for Unicode identifiers that do not end in $. The dollar sign is Pattern_Syntax in Unicode, so isUnicodeWord rejects it although it is documented as a word character, and an identifier such as a$ is refused in front of a UnicodeWordBoundary."
  },
  {
   "property": "C56",
   "status": "proved",
   "theorems": [
    "C56_recursion_terminates",
    "C56_left_recursion_diverges",
    "C56_library_leaves",
    "C56_formula_grammar"
   ],
   "note": "Termination and divergence are two separate criteria: a recursion that consumes on some inputs only is neither guarded nor, on the other inputs, divergent. C56_formula_grammar applies the first to the recursive grammar of the formula and torpn examples with any total production rule."
  },
  {
   "property": "C57",
   "status": "partial",
   "theorems": [
    "C57_error_origin",
    "C57_unmatched_position",
    "C57_formula_errors",
    "C57_torpn_errors",
    "C57_formula_message",
    "C57_torpn_message",
    "C57_csv_message",
    "C57_failing_leaves",
    "C57_position_refuted"
   ],
   "note": "Proved but for the last clause, which is false (C57_position_refuted): for '1 +<LF>2 3' the formula example reports 'Parse failed' for line 1, column 1, since a sequence that does not match gives up where it started (C57_unmatched_position). The theorems about messages state that this is the only imprecise report of formula and torpn; CSV reports anything but an unclosed quote in this way."
  },
  {
   "property": "C58",
   "status": "proved",
   "theorems": [
    "C58_binary",
    "C58_octal",
    "C58_hexadecimal",
    "C58_integer",
    "C58_binary_uint",
    "C58_octal_uint",
    "C58_hexadecimal_uint",
    "C58_integer_uint",
    "C58_values"
   ],
   "note": ""
  },
  {
   "property": "C59",
   "status": "partial",
   "theorems": [
    "C59_parse_int",
    "C59_parse_uint",
    "C59_literal_unique",
    "C59_other_radix"
   ],
   "note": "Proved, with the exception found in C21: on the empty text ParseUintRadix panics whatever the radix, which C59_parse_uint states as its third case."
  },
  {
   "property": "C60",
   "status": "partial",
   "theorems": [
    "C60_csv",
    "C60_formula",
    "C60_formula_failure",
    "C60_no_argument",
    "C60_csv_failure_refuted",
    "C60_formula_refuted",
    "C60_division_refuted"
   ],
   "note": "The results for valid texts are proved (C60_csv, C60_formula). The rest is false: a text that cannot be parsed gives an empty table or 0 as valid texts do (C60_csv_failure_refuted, C60_formula_refuted), values beyond 2^53 are rounded (C60_formula says how), a division by zero panics (C60_division_refuted), and an argument that is no string is parsed as a text such as '<number: 42>'."
  },
  {
   "property": "C61",
   "status": "partial",
   "theorems": [
    "C61_get",
    "C61_type_names",
    "C61_get_zero",
    "C61_unaddressed",
    "C61_set",
    "C61_change",
    "C61_set_get",
    "C61_index",
    "C61_index_zero",
    "C61_map_index",
    "C61_map_index_zero",
    "C61_set_get_refuted",
    "C61_map_set_refuted",
    "C61_set_nil_refuted"
   ],
   "note": "Proved with three exceptions: an integer that does not fit into the width of the element is reduced silently (C61_set_get states when it comes back, C61_set_get_refuted), boxes of map elements cannot be set (C61_map_set_refuted), and SetAny(nil) always panics (C61_set_nil_refuted). Value.Bytes is modelled as in Go up to 1.18; from 1.19 on it also accepts addressable arrays of bytes. int and uint have 64 bits; structs and pointers are opaque values; float32, functions, channels and other defined types are not modelled."
  },
  {
   "property": "C62",
   "status": "proved",
   "theorems": [
    "C62_formula_reading",
    "C62_formula_value",
    "C62_formula_panic",
    "C62_formula_error",
    "C62_formula_message",
    "C62_torpn_reading",
    "C62_torpn_value",
    "C62_torpn_error",
    "C62_torpn_other",
    "C62_torpn_message"
   ],
   "note": "The reading is a relation on texts (S_FormulaRead) that has exactly one answer for every byte string; the answers of the two models are exactly those, in both directions. It contains C38, C39 and C57 for these parsers as special cases."
  },
  {
   "property": "C63",
   "status": "proved",
   "theorems": [
    "C63_parse_float",
    "C63_one_answer",
    "C63_transformer",
    "C63_float_token",
    "C63_numeric_token",
    "C63_agrees",
    "C63_long_text_refuted"
   ],
   "note": "float_answer (S_FloatAll) is a relation on texts; C63_one_answer shows that it leaves no choice. The bounds on exponent and length are part of the statement: strconv drops exponent digits from 10000 on, so 0.00...01e100000 with 99999 zeros gives 0 instead of 1 (C63_long_text_refuted). Rounding is in exact arithmetic; the algorithms of strconv (Eisel-Lemire, decimal shifting) are not modelled."
  },
  {
   "property": "C64",
   "status": "proved",
   "theorems": [
    "C64_quote",
    "C64_literal_unique",
    "C64_int_message",
    "C64_uint_message",
    "C64_float_message",
    "C64_agrees",
    "C64_type_names",
    "C64_status_names",
    "C64_constant_names"
   ],
   "note": "strconv.Quote is modelled for all byte strings with IsPrint as a parameter (assumed to reject control characters). One line and free of control characters is part of literal_text, whose characters are at least U+0020 and not U+007F. Errors about an invalid radix are not modelled."
  },
  {
   "property": "C65",
   "status": "proved",
   "theorems": [
    "C65_lists_are_values",
    "C65_postfix",
    "C65_caller_memory",
    "C65_unary_alone_refuted"
   ],
   "note": "Model with a heap of backing arrays threaded through the engine (never rolled back), simulated by the list model; the AST stack itself is a list here (its slices: C13). C65_unary_alone_refuted records that transformUnaryOp is only safe because every operand is used once."
  },
  {
   "property": "C66",
   "status": "proved",
   "theorems": [
    "C66_history_is_irrelevant",
    "C66_session",
    "C66_only_the_position_leaks",
    "C66_feeding",
    "C66_second_parse_refuted"
   ],
   "note": "Without the condition that Prepend and Push never meet an empty list the claim that a grammar can be used again is false (C66_second_parse_refuted). Proved under it for every grammar, with the variables threaded through the engine; C66_feeding shows where the condition can be read off."
  },
  {
   "property": "C67",
   "status": "proved",
   "theorems": [
    "C67_time_texts",
    "C67_date_time_texts",
    "C67_one_instant",
    "C67_go_versions",
    "C67_layout_refuted"
   ],
   "note": "For every text. C67_layout_refuted shows that texts outside of the layout are accepted (5:00:00,+00000007). time.Parse is part of the model (M_Time)."
  },
  {
   "property": "C68",
   "status": "partial",
   "theorems": [
    "C68_kinds",
    "C68_get",
    "C68_get_none",
    "C68_not_initialised",
    "C68_set",
    "C68_set_nil",
    "C68_set_nil_map",
    "C68_set_none",
    "C68_change",
    "C68_set_reflection",
    "C68_reflection",
    "C68_index",
    "C68_map_index_refuted",
    "C68_index_refuted",
    "C68_set_int_refuted"
   ],
   "note": "Everything is proved except that Index and MapIndex of the map boxes give the element of the box's own value: they give the empty box and the box for another key of the same container (C68_map_index_refuted, C68_index_refuted). C68_set_int_refuted: SetInt through a map box panics for int8 elements, which GetInt reads and a ReflectionBox sets."
  },
  {
   "property": "C69",
   "status": "proved",
   "theorems": [
    "C69_grammars",
    "C69_leaves",
    "C69_conditions",
    "C69_transformers",
    "C69_uses",
    "C69_history",
    "C69_top_is_refuted",
    "C69_item_equals_refuted"
   ],
   "note": "Proved for every grammar of the library's parts except the ones the statement excepts: TopIs and AstSlice.ItemEquals compare positions inside values (C69_top_is_refuted, C69_item_equals_refuted), so a Match can depend on where in the text an AST stands; object.Seq, ObjClass and ObjClassN are left out for this reason."
  },
  {
   "property": "C70",
   "status": "proved",
   "theorems": [
    "C70_no_variables",
    "C70_own_values",
    "C70_shared_values",
    "C70_alone",
    "C70_positions_refuted"
   ],
   "note": "What holds is proved for all schedules; that shared Prepend and Push values do no harm at all is false: a goroutine can get an AST with the position of another goroutine's text, outside of its own (C70_positions_refuted). Each access to the variable is one step in the model."
  },
  {
   "property": "C71",
   "status": "proved",
   "theorems": [
    "C71_text",
    "C71_read_back",
    "C71_text_injective",
    "C71_narrow",
    "C71_narrow_same",
    "C71_round_trip",
    "C71_float32_refuted"
   ],
   "note": "Also shown: the float32 stored by Unmarshal need not be the one nearest to the text, since it is rounded twice (C71_float32_refuted)."
  },
  {
   "property": "C72",
   "status": "proved",
   "theorems": [
    "C72_marshal_argument",
    "C72_unmarshal_argument",
    "C72_unmarshal_message",
    "C72_every_message"
   ],
   "note": "C72_every_message is about cells of up to 2000 bytes, since ParseFloat is inexact for longer ones (C63)."
  },
  {
   "property": "C73",
   "status": "proved",
   "theorems": [
    "C73_whole_text",
    "C73_minimal",
    "C73_main",
    "C73_main_error"
   ],
   "note": ""
  },
  {
   "property": "C74",
   "status": "proved",
   "theorems": [
    "C74_live_source",
    "C74_source_survives",
    "C74_library",
    "C74_production",
    "C74_formula",
    "C74_writer_refuted"
   ],
   "note": "C74_writer_refuted shows that the condition on the parts is needed: a transformer that assigns to ctx.Slice."
  },
  {
   "property": "C75",
   "status": "proved",
   "theorems": [
    "C75_DeepEqual",
    "C75_relation",
    "C75_contents",
    "C75_DeepEqual_value",
    "C75_ItemEquals",
    "C75_shared_nan_refuted",
    "C75_nil_slice_refuted",
    "C75_cyclic_list_refuted"
   ],
   "note": "The refuted claims are the simplifications that the model of C12 and C52 makes: contents alone decide (false with NaN and functions in shared arrays), nil and empty slices are equal (false for DeepEqual), ItemEquals always ends (false for a list that contains itself)."
  },
  {
   "property": "C76",
   "status": "proved",
   "theorems": [
    "C76_refactoring",
    "C76_inline",
    "C76_repetitions",
    "C76_fold_refuted",
    "C76_first_order_refuted",
    "C76_distribute_refuted",
    "C76_first_none_refuted",
    "C76_zero_refuted",
    "C76_if"
   ],
   "note": "The laws are those of S_Laws.v. Match and BaseParser with other implementation functions are not covered: like for C01, leaves may depend only on the input, the position and the tag. The refutations are for the rewritings that are not laws."
  },
  {
   "property": "C77",
   "status": "proved",
   "theorems": [
    "C77_same",
    "C77_bound",
    "C77_polynomial",
    "C77_linear_refuted",
    "C77_exponential",
    "C77_polynomial_refuted",
    "C77_factored",
    "C77_csv",
    "C77_traced"
   ],
   "note": "Calls made by production rules are counted in C78. C77_traced is about grammars without Indirect and ProductionRule: rules behind Indirect are built without tracing (C42). The refuted claims are a linear bound without recursion and a polynomial bound with it."
  },
  {
   "property": "C78",
   "status": "proved",
   "theorems": [
    "C78_same",
    "C78_bound",
    "C78_sums",
    "C78_formula_same",
    "C78_formula",
    "C78_formula_linear_refuted",
    "C78_torpn"
   ],
   "note": "C78_formula and C78_torpn hold whenever Parse returns (a division by zero in formula panics); that it always ends is C56."
  },
  {
   "property": "C79",
   "status": "proved",
   "theorems": [
    "C79_same",
    "C79_view",
    "C79_after",
    "C79_append",
    "C79_before",
    "C79_leaves",
    "C79_transformers",
    "C79_uses",
    "C79_fewer_bytes_refuted",
    "C79_look_back_refuted"
   ],
   "note": "For string inputs. With a text put before, the ASTs are compared except for their positions (C69 says what those can influence). C79_before needs a grammar without look-behinds, Start and WordBoundary: for these C79_look_back_refuted has witnesses."
  },
  {
   "property": "C80",
   "status": "proved",
   "theorems": [
    "C80_same",
    "C80_static",
    "C80_csv",
    "C80_ranked",
    "C80_left_recursion_refuted",
    "C80_rules",
    "C80_formula_same",
    "C80_formula",
    "C80_constant_refuted"
   ],
   "note": "Counted are the parser functions on the stack, not the bytes of the frames: how large a frame is and how large the stack may get is up to the Go runtime. C80_constant_refuted is for texts of opening parentheses only."
  },
  {
   "property": "C81",
   "status": "proved",
   "theorems": [
    "C81_settles",
    "C81_cells",
    "C81_tables",
    "C81_readable_tables",
    "C81_once_refuted",
    "C81_unchanged_refuted"
   ],
   "note": "Over the model of the CSV example; a row without text is an empty row or one with one empty cell."
  },
  {
   "property": "C82",
   "status": "proved",
   "theorems": [
    "C82_errors",
    "C82_errors_back",
    "C82_formulas",
    "C82_machine",
    "C82_same",
    "C82_every_program",
    "C82_smallest_refuted"
   ],
   "note": "The stack machine is a specification; the repository has none. C82_smallest_refuted marks the limit of C82_every_program."
  },
  {
   "property": "C83",
   "status": "proved",
   "theorems": [
    "C83_join",
    "C83_errors",
    "C83_junk",
    "C83_lines",
    "C83_concatenation_refuted"
   ],
   "note": "What a row of a text is comes from the reading relations of S_Csv, which C37 ties to the code. C83_concatenation_refuted shows why the conditions on rows without text are needed."
  },
  {
   "property": "C84",
   "status": "proved",
   "theorems": [
    "C84_value",
    "C84_division",
    "C84_group",
    "C84_minus",
    "C84_panic",
    "C84_torpn",
    "C84_torpn_minus",
    "C84_bare_refuted",
    "C84_back_refuted"
   ],
   "note": "Only texts that have a value (or panic) are put together; C84_back_refuted shows that texts with an error cannot be, C84_bare_refuted that the parentheses are needed."
  },
  {
   "property": "C85",
   "status": "proved",
   "theorems": [
    "C85_spacing",
    "C85_unspaced",
    "C85_sign_refuted"
   ],
   "note": "Only for texts that are accepted; in other texts the space decides where the error is reported. C85_sign_refuted shows why a sign that touches a number belongs to the token."
  },
  {
   "property": "C86",
   "status": "proved",
   "theorems": [
    "C86_torpn",
    "C86_literal",
    "C86_parse_failed",
    "C86_formula",
    "C86_last_refuted"
   ],
   "note": "The place is the one whose line and column the error states. C86_last_refuted: an unclosed parenthesis is reported behind the parenthesis although the whole text can be completed."
  },
  {
   "property": "C87",
   "status": "proved",
   "theorems": [
    "C87_unclosed",
    "C87_final",
    "C87_prefix",
    "C87_cut_refuted",
    "C87_quote_refuted"
   ],
   "note": "C87_cut_refuted: cut between the two bytes of a line break C2 85 a text is junk after the quote although the whole is accepted. C87_quote_refuted: a quote at the end of a text without an open quote may open one."
  },
  {
   "property": "C88",
   "status": "proved",
   "theorems": [
    "C88_value",
    "C88_error",
    "C88_computed",
    "C88_torpn",
    "C88_inside_refuted",
    "C88_postfix_refuted"
   ],
   "note": "C88_computed leaves out the smallest int64, which has no literal with a sign at the start of a text. C88_inside_refuted: 1)+(2 has the value 3 only inside parentheses and cannot be exchanged for 3."
  },
  {
   "property": "C89",
   "status": "proved",
   "theorems": [
    "C89_shape",
    "C89_cells",
    "C89_blank",
    "C89_error",
    "C89_exchange",
    "C89_row",
    "C89_alone_refuted"
   ],
   "note": "C89_alone_refuted: a text with a line break at its end is accepted as one row, but a comma after it starts a second row."
  },
  {
   "property": "C90",
   "status": "proved",
   "theorems": [
    "C90_order",
    "C90_determined",
    "C90_crlf_refuted",
    "C90_before",
    "C90_embedded",
    "C90_cut_refuted"
   ],
   "note": "C90_crlf_refuted: the positions before and behind the LF of a CRLF have the same line and column. C90_cut_refuted: when a CRLF is cut in two the lines do not add up."
  },
  {
   "property": "C91",
   "status": "proved",
   "theorems": [
    "C91_formula",
    "C91_torpn",
    "C91_csv",
    "C91_position_refuted"
   ],
   "note": "C91_position_refuted: with LF and with CR LF further up the message is the same and the position is not."
  },
  {
   "property": "C92",
   "status": "proved",
   "theorems": [
    "C92_calls",
    "C92_depth"
   ],
   "note": "The length is that of the whole text, not of what is read. Calls are counted as in C77 and depth as in C80."
  },
  {
   "property": "C93",
   "status": "proved",
   "theorems": [
    "C93_kept",
    "C93_cells",
    "C93_valid",
    "C93_size",
    "C93_malformed_refuted"
   ],
   "note": "C93_malformed_refuted: two malformed bytes become six in a cell."
  },
  {
   "property": "C94",
   "status": "proved",
   "theorems": [
    "C94_numbers",
    "C94_numerals",
    "C94_operators",
    "C94_size"
   ],
   "note": "the numerals of a text are given by a relation on its bytes alone (C94_numerals: total and unique)"
  },
  {
   "property": "C95",
   "status": "proved",
   "theorems": [
    "C95_dates",
    "C95_times",
    "C95_date_times",
    "C95_offsets_refuted",
    "C95_other_times_refuted"
   ],
   "note": "the instants are values of an injective stand-in for time.Time, as in C49 to C51; the two refuted theorems show that the conditions are needed"
  }
 ]
}
