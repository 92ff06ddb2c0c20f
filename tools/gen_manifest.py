#!/usr/bin/env python3
# Writes /verif/MANIFEST.json.  One entry per property: status, theorems, note.
import json, os
OUT = os.path.join(os.path.dirname(os.path.abspath(__file__)), "..", "MANIFEST.json")
rows = []
def C(pid, status, theorems, note=""):
    rows.append(dict(property=pid, status=status, theorems=theorems.split(), note=note))

C("C01", "proved", "C01_peg_semantics C01_unique_answer")
C("C02", "proved", "C02_repeat_counts C02_repeat_runs")
C("C03", "proved", "C03_lookahead C03_lookaheadN C03_lookbehind C03_leaves C03_zero",
  "Start, End and WordBoundary keep Position and the stack; they set SourcePosition.Length to 0.")
C("C04", "proved", "C04_failed_alternatives C04_first_match_wins C04_no_alternative C04_sequence_rolls_back C02_repeat_counts",
  "The clause about a failing iteration is the position/stack part of C02_repeat_counts.")
C("C05", "proved", "C05_errors_cut")
C("C06", "proved", "C06_status_iff_error C06_library_grammars C06_base_parser_refuted",
  "For BaseParser called directly with an implementation function the claim is false: C06_base_parser_refuted.")
C("C07", "proved", "C07_source_unchanged C07_library_grammars")
C("C08", "proved", "C08_position_in_bounds C08_string_grammars C08_object_grammars")
C("C09", "proved", "C09_match_only_pushes C09_library_grammars")
C("C10", "proved", "C10_no_panic C10_string_grammars C10_transformers",
  "Transformers that do panic (Exchange, ParseUint on the empty string) are shown by examples.")
C("C11", "proved", "C11_terminates C11_library_leaves C11_zero_width_diverges",
  "Rules may refer to rules with a smaller index (acyclic use of Indirect).")
C("C12", "proved", "C12_past_is_irrelevant")
C("C15", "proved", "C15_character_parsers C15_next_char_unique C15_character_lists")
C("C16", "proved", "C16_seq C16_char_class C16_char_classN C16_seqi")
C("C17", "proved", "C17_no_text_lost C17_transformers C17_seqi_mid_character_refuted",
  "SeqI literals with U+FFFD are excluded: C17_seqi_mid_character_refuted shows why.")
C("C18", "proved", "C18_character_boundaries C17_seqi_mid_character_refuted")
C("C19", "partial", "C19_word_boundary_partial C19_unicode_word_boundary_partial C19_word_boundary_exact C19_unicode_word_boundary_exact C19_word_boundary_refuted",
  "False as stated: lead bytes F1, F2, F4 are not recognised (C19_word_boundary_refuted). Proved when the previous character is in a known plane; the exact theorems state for every input which character the code takes for the previous one.")
C("C44", "partial", "C44_positions_partial C44_entry_position_partial C44_both_fields_partial C44_length_refuted C44_group_position_refuted",
  "Position is right; Length is the previous token's length (C44_length_refuted); Group ASTs have the zero position. C44_both_fields_partial says exactly which Position and Length every AST of a run carries.")
C("C20", "proved", "C20_concat C20_concat_fails C20_trim C20_trim_start C20_trim_end C20_trim_unique")
C("C21", "partial", "C21_parse_int C21_parse_uint_partial C21_numeral_unique C21_parse_uint_exact C21_int_error C21_uint_error C21_parse_uint_refuted",
  "ParseUint panics on the empty text (C21_parse_uint_refuted); everything else is proved, including which error a text that is no number causes, for bases 2..36 here and for base 0 and the refused bases in C59.")
C("C22", "partial", "C22_string_from_int_partial C22_string_from_rune C22_round_trip C22_string_from_int_exact C22_int_from_rune_tag_refuted C22_string_from_int_refuted",
  "IntFromRune tags an integer as String; StringFromInt truncates to int32. Proved inside the int32 range; outside of it C22_string_from_int_exact says which rune comes out.")
C("C23", "partial", "C23_erase C23_first_element C23_ends C23_exchange_refuted C23_roll_refuted",
  "Exchange panics and Roll does nothing; the other transformers are proved.")
C("C24", "partial", "C24_prepend_partial C24_push_partial C24_prepend_stale C24_push_stale C24_refuted",
  "False for empty lists: the position of an earlier call leaks. Proved for non-empty lists, and the leaked value is characterised.")
C("C26", "partial", "C26_any C26_obj_class C26_obj_classN C26_obj_classFn C26_end C26_exclusive C26_seq_partial C26_seq_refuted",
  "Seq is false as stated: it ignores its arguments' values (C26_seq_refuted); what it does is C26_seq_partial. All others proved.")
C("C27", "proved", "C27_symmetric C27_transitive C27_reflexive C27_ignores_positions C27_equal C27_panics C27_deep")
C("C28", "proved", "C28_production_rule C28_deterministic C28_result_checked C28_grammar_rules")
C("C29", "proved", "C29_shrinking_terminates")
C("C31", "proved", "C31_binary C31_octal C31_hexadecimal C31_where")
C("C32", "proved", "C32_integer C32_where C32_value")
C("C33", "partial", "C33_float C33_numeric C33_acceptable_partial C33_acceptable_refuted",
  "Matching, maximal consumption and the returned text are proved for the grammar of the code. Acceptability of the text to a decimal float parser is proved when the mantissa has a digit and refuted otherwise: both parsers accept '._' and return '.'.")
C("C34", "proved", "C34_ascii C34_unicode",
  "The Unicode tables are arbitrary; the hypothesis is that U+FFFD is in neither class (true of Unicode), since malformed bytes are read as U+FFFD.")
C("C35", "proved", "C35_date C35_time C35_date_time C35_fixed_format")
C("C30", "proved", "C30_line_and_column C30_lines_exist C30_rest_exists C30_no_panic")
C("C41", "proved", "C41_identity C41_visits_exist C41_calls C41_log_is_transparent C41_error_reaches_every_ancestor C41_no_panic C41_backward_jump_panics", "every behaviour of the callbacks; a negative pcIncr can make Traverse panic, as C41_backward_jump_panics shows")
C("C42", "partial", "C42_transparent C42_transparent_grammar C42_nested_events C42_events_report_the_call C42_before_panics C42_after_panics C42_failed_sequence C42_missed_alternatives C42_rules_in_place C42_configuration_restored C42_tracking_numbers C42_everything_is_traced C42_silent_when_off C42_indirect_rules_refuted C42_meddling_tracer_refuted C42_panic_nil_refuted", "Transparency holds for tracers that only look; a tracer that writes through the context pointer changes results (C42_meddling_tracer_refuted). Rules behind Indirect are built after the configuration is restored and are not traced (C42_indirect_rules_refuted). Where recover() returns nil for panic(nil) (go.mod says 1.17), a parser that panics with nil matches when it is traced (C42_panic_nil_refuted). The events of the parsers that ProductionRule runs are part of the log, and tracers may panic.")
C("C43", "proved", "C43_no_nil_call C43_schedule_independent C43_result_of_some_instance C43_built_once_set C43_no_waiting C43_unsynchronised_refuted", "For atomic reads and writes, as the property says; the code has no synchronisation, C43_unsynchronised_refuted shows what the Go memory model then allows.")
C("C46", "partial", "C46_get_any C46_get_typed C46_other_accessor C46_other_keys C46_not_initialised C46_interface_map_refuted C46_nil_refuted", "True for GetAny and for the accessor of the element type of the map. False as stated for a map with element type interface{} read by a typed accessor (GetInt panics, GetString returns another text), and for SetAny(nil), which deletes the key.")
C("C36", "partial", "C36_round_trip_refuted C36_what_comes_back C36_round_trip_iff",
  "The documented round trip is false: double quotes in quoted cells, space around cells, malformed bytes, and rows without text are lost, and a cell starting with a double quote cannot be read back (refuted with witnesses). Proved instead, for all tables: exactly what comes back, and that the unchanged tables are exactly those of safe_table.")
C("C37", "proved", "C37_csv_total C37_csv_reading",
  "Every byte string is answered with a table or an error, and the answer is the one given by the parser-free reading relation read_csv (total and deterministic). The messages are in C57.")
C("C38","partial","C38_formula_value C38_exact_value C38_only_formulas C38_smallest_refuted","Every formula with literals below 2^63 that does not divide by zero is answered with its value (precedence, left associativity, wrapping int64); every answered value is the value of a formula. Refuted at the edge: -9223372036854775808 is an error although the value exists. Formulas that divide by zero: see C39.")
C("C39","partial","C39_total_but_for_division C39_divides C39_total_refuted","Refuted: 1/0 and (1/0 panic. Apart from texts containing an expression that divides by zero, every byte string is answered with a value or an error, with bounded fuel.")
C("C40","partial","C40_postfix C40_total C40_only_formulas C40_machine C40_machine_det C40_unambiguous_partial C40_ambiguous_refuted","Parse is total and answers exactly with the postfix form; where minus signs stand only before literals the postfix form evaluates to the value on a stack machine and determines it. Refuted in general: 5-(-(1+2)) and -(5-(1+2)) both give [5 1 2 + - -]. The in-place append of transformUnaryOp is modelled as list concatenation here; that this is faithful is C65.")
C("C45", "partial", "C45_marshal_cells_partial C45_marshal_any_order_partial C45_marshal_total C45_unmarshal_fields_partial C45_unmarshal_total_partial C45_unmarshal_rows C45_unmarshal_errors C45_round_trip_partial C45_marshal_exact C45_marshal_every_order C45_marshal_order_result C45_marshal_panics_exact C45_unmarshal_exact C45_unmarshal_fault C45_unmarshal_every_fault C45_unmarshal_one_struct C45_any_order_refuted C45_other_columns_empty_refuted C45_marshal_panics_refuted C45_unmarshal_panics_refuted C45_unmarshal_wrong_refuted",
  "The statement as documented is false: a field that is not listed in cols overwrites column 0, so the result depends on the map order and unowned columns are not empty; Marshal panics without columns; Unmarshal panics on short rows and unexported fields, truncates integers and reads an empty header cell into every untagged field (all proved). Proved in their place: with every field's column listed Marshal writes exactly the cells described, in any map order; Unmarshal reads the fields described; the round trip restores the rows; neither panics under the stated conditions. Without those conditions: Marshal writes exactly what the fields write in some order, every order is possible, and it panics exactly if there is something to write and no column; Unmarshal returns exactly the structs described, and otherwise the first bad row explains the error or panic, each of its faults being the result for some map order. Floats are rendered and read by arbitrary functions.")
C("C47", "proved", "C47_to_slice C47_to_slice_panics C47_grouping C47_transform_error")
C("C13", "proved", "C13_copy_semantics C13_whole_parse C13_saved_stacks_survive C13_library_leaves C13_library_transformers C13_production_rule",
  "Refinement of the list model by a heap model with arrays, slice headers, in-place append and an arbitrary growth policy. Transformers may even write into their argument slice. When a parser returns an error the contents of the returned stack are not compared. Slices that a transformer keeps inside an AST value are values in the model (no library transformer keeps its argument slice).")
C("C14", "partial", "C14_match_backtracking_refuted C14_copy_semantics_refuted C14_match_reach_partial",
  "False as stated: a Match(1) inside a failing alternative of First rewrites an AST of the shared array in place (refuted with a witness, for every growth policy). Proved instead: grammars in which no alternative rewrites ASTs below its own pushes before failing (relation reach) behave as with copied stacks.")
C("C48", "proved", "C48_rewrites_top C48_no_case C48_inversion C48_short_stack_panics C48_case_matchers C48_never_equal")
C("C49", "proved", "C49_calendar C49_parse_date C49_date_token C49_panics",
  "time.Parse is modelled for the two layouts that occur; the calendar is specified by its succession of days. Holds for both behaviours of Go's offset check.")
C("C50", "proved", "C50_parse_time C50_time_token")
C("C51", "proved", "C51_parse_date_time C51_date_time_token")
C("C52", "partial", "C52_dates C52_times C52_total_refuted",
  "False as stated: 10000-01-01, -0001-01-01, 23:59:60 and 24:00 are accepted by the token parsers and rejected by the conversions. Proved instead: exactly which accepted tokens are converted.")
C("C53", "proved", "C53_get C53_set C53_set_panics C53_reslice C53_reslice_panics C53_copy C53_make C53_copy_panics C53_make_panics",
  "The bound of Reslice and Copy is the capacity, so both may expose elements beyond the length; C53_copy states the contents for end <= length.")
C("C54", "proved", "C54_parse_float C54_float_token C54_numeric_token C54_numbers C54_value_unique C54_rounded_unique C54_digitless_token",
  "strconv.ParseFloat is modelled for decimal texts by exact arithmetic; hexadecimal, inf, nan and underscore texts are a parameter. The number token without a digit found in C33 ends in a syntax error here.")
C("C55", "partial", "C55_ascii C55_unicode_partial C55_word_characters C55_unicode_refuted",
  "True for ASCII identifiers and for Unicode identifiers that do not end in $. The dollar sign is Pattern_Syntax in Unicode, so isUnicodeWord rejects it although it is documented as a word character, and an identifier such as a$ is refused in front of a UnicodeWordBoundary.")
C("C56", "proved", "C56_recursion_terminates C56_left_recursion_diverges C56_library_leaves C56_formula_grammar",
  "Termination and divergence are two separate criteria: a recursion that consumes on some inputs only is neither guarded nor, on the other inputs, divergent. C56_formula_grammar applies the first to the recursive grammar of the formula and torpn examples with any total production rule.")
C("C57", "partial", "C57_error_origin C57_unmatched_position C57_formula_errors C57_torpn_errors C57_formula_message C57_torpn_message C57_csv_message C57_failing_leaves C57_position_refuted",
  "Proved but for the last clause, which is false (C57_position_refuted): for '1 +<LF>2 3' the formula example reports 'Parse failed' for line 1, column 1, since a sequence that does not match gives up where it started (C57_unmatched_position). The theorems about messages state that this is the only imprecise report of formula and torpn; CSV reports anything but an unclosed quote in this way.")
C("C58", "proved", "C58_binary C58_octal C58_hexadecimal C58_integer C58_binary_uint C58_octal_uint C58_hexadecimal_uint C58_integer_uint C58_values")
C("C59", "partial", "C59_parse_int C59_parse_uint C59_literal_unique C59_other_radix",
  "Proved, with the exception found in C21: on the empty text ParseUintRadix panics whatever the radix, which C59_parse_uint states as its third case.")
C("C60", "partial", "C60_csv C60_formula C60_formula_failure C60_no_argument C60_csv_failure_refuted C60_formula_refuted C60_division_refuted",
  "The results for valid texts are proved (C60_csv, C60_formula). The rest is false: a text that cannot be parsed gives an empty table or 0 as valid texts do (C60_csv_failure_refuted, C60_formula_refuted), values beyond 2^53 are rounded (C60_formula says how), a division by zero panics (C60_division_refuted), and an argument that is no string is parsed as a text such as '<number: 42>'.")
C("C61", "partial", "C61_get C61_type_names C61_get_zero C61_unaddressed C61_set C61_change C61_set_get C61_index C61_index_zero C61_map_index C61_map_index_zero C61_set_get_refuted C61_map_set_refuted C61_set_nil_refuted",
  "Proved with three exceptions: an integer that does not fit into the width of the element is reduced silently (C61_set_get states when it comes back, C61_set_get_refuted), boxes of map elements cannot be set (C61_map_set_refuted), and SetAny(nil) always panics (C61_set_nil_refuted). Value.Bytes is modelled as in Go up to 1.18; from 1.19 on it also accepts addressable arrays of bytes. int and uint have 64 bits; structs and pointers are opaque values; float32, functions, channels and other defined types are not modelled.")
C("C62", "proved", "C62_formula_reading C62_formula_value C62_formula_panic C62_formula_error C62_formula_message C62_torpn_reading C62_torpn_value C62_torpn_error C62_torpn_other C62_torpn_message",
  "The reading is a relation on texts (S_FormulaRead) that has exactly one answer for every byte string; the answers of the two models are exactly those, in both directions. It contains C38, C39 and C57 for these parsers as special cases.")
C("C63", "proved", "C63_parse_float C63_one_answer C63_transformer C63_float_token C63_numeric_token C63_agrees C63_long_text_refuted",
  "float_answer (S_FloatAll) is a relation on texts; C63_one_answer shows that it leaves no choice. The bounds on exponent and length are part of the statement: strconv drops exponent digits from 10000 on, so 0.00...01e100000 with 99999 zeros gives 0 instead of 1 (C63_long_text_refuted). Rounding is in exact arithmetic; the algorithms of strconv (Eisel-Lemire, decimal shifting) are not modelled.")
C("C64", "proved", "C64_quote C64_literal_unique C64_int_message C64_uint_message C64_float_message C64_agrees C64_type_names C64_status_names C64_constant_names",
  "strconv.Quote is modelled for all byte strings with IsPrint as a parameter (assumed to reject control characters). One line and free of control characters is part of literal_text, whose characters are at least U+0020 and not U+007F. Errors about an invalid radix are not modelled.")
C("C65", "proved", "C65_lists_are_values C65_postfix C65_caller_memory C65_unary_alone_refuted",
  "Model with a heap of backing arrays threaded through the engine (never rolled back), simulated by the list model; the AST stack itself is a list here (its slices: C13). C65_unary_alone_refuted records that transformUnaryOp is only safe because every operand is used once.")
C("C66", "proved", "C66_history_is_irrelevant C66_session C66_only_the_position_leaks C66_feeding C66_second_parse_refuted",
  "Without the condition that Prepend and Push never meet an empty list the claim that a grammar can be used again is false (C66_second_parse_refuted). Proved under it for every grammar, with the variables threaded through the engine; C66_feeding shows where the condition can be read off.")
C("C67", "proved", "C67_time_texts C67_date_time_texts C67_one_instant C67_go_versions C67_layout_refuted", "For every text. C67_layout_refuted shows that texts outside of the layout are accepted (5:00:00,+00000007). time.Parse is part of the model (M_Time).")
C("C68", "partial", "C68_kinds C68_get C68_get_none C68_not_initialised C68_set C68_set_nil C68_set_nil_map C68_set_none C68_change C68_set_reflection C68_reflection C68_index C68_map_index_refuted C68_index_refuted C68_set_int_refuted",
  "Everything is proved except that Index and MapIndex of the map boxes give the element of the box's own value: they give the empty box and the box for another key of the same container (C68_map_index_refuted, C68_index_refuted). C68_set_int_refuted: SetInt through a map box panics for int8 elements, which GetInt reads and a ReflectionBox sets.")
C("C69", "proved", "C69_grammars C69_leaves C69_conditions C69_transformers C69_uses C69_history C69_top_is_refuted C69_item_equals_refuted",
  "Proved for every grammar of the library's parts except the ones the statement excepts: TopIs and AstSlice.ItemEquals compare positions inside values (C69_top_is_refuted, C69_item_equals_refuted), so a Match can depend on where in the text an AST stands; object.Seq, ObjClass and ObjClassN are left out for this reason.")
C("C70", "proved", "C70_no_variables C70_own_values C70_shared_values C70_alone C70_positions_refuted",
  "What holds is proved for all schedules; that shared Prepend and Push values do no harm at all is false: a goroutine can get an AST with the position of another goroutine's text, outside of its own (C70_positions_refuted). Each access to the variable is one step in the model.")
C("C71", "proved", "C71_text C71_read_back C71_text_injective C71_narrow C71_narrow_same C71_round_trip C71_float32_refuted",
  "Also shown: the float32 stored by Unmarshal need not be the one nearest to the text, since it is rounded twice (C71_float32_refuted).")
C("C72", "proved", "C72_marshal_argument C72_unmarshal_argument C72_unmarshal_message C72_every_message",
  "C72_every_message is about cells of up to 2000 bytes, since ParseFloat is inexact for longer ones (C63).")
C("C73", "proved", "C73_whole_text C73_minimal C73_main C73_main_error", "")
C("C74", "proved", "C74_live_source C74_source_survives C74_library C74_production C74_formula C74_writer_refuted",
  "C74_writer_refuted shows that the condition on the parts is needed: a transformer that assigns to ctx.Slice.")
C("C75", "proved", "C75_DeepEqual C75_relation C75_contents C75_DeepEqual_value C75_ItemEquals C75_shared_nan_refuted C75_nil_slice_refuted C75_cyclic_list_refuted",
  "The refuted claims are the simplifications that the model of C12 and C52 makes: contents alone decide (false with NaN and functions in shared arrays), nil and empty slices are equal (false for DeepEqual), ItemEquals always ends (false for a list that contains itself).")
C("C76", "proved", "C76_refactoring C76_inline C76_repetitions C76_fold_refuted C76_first_order_refuted C76_distribute_refuted C76_first_none_refuted C76_zero_refuted C76_if",
  "The laws are those of S_Laws.v. Match and BaseParser with other implementation functions are not covered: like for C01, leaves may depend only on the input, the position and the tag. The refutations are for the rewritings that are not laws.")
C("C77", "proved", "C77_same C77_bound C77_polynomial C77_linear_refuted C77_exponential C77_polynomial_refuted C77_factored C77_csv C77_traced",
  "Calls made by production rules are counted in C78. C77_traced is about grammars without Indirect and ProductionRule: rules behind Indirect are built without tracing (C42). The refuted claims are a linear bound without recursion and a polynomial bound with it.")
C("C78", "proved", "C78_same C78_bound C78_sums C78_formula_same C78_formula C78_formula_linear_refuted C78_torpn",
  "C78_formula and C78_torpn hold whenever Parse returns (a division by zero in formula panics); that it always ends is C56.")
C("C79", "proved", "C79_same C79_view C79_after C79_append C79_before C79_leaves C79_transformers C79_uses C79_fewer_bytes_refuted C79_look_back_refuted",
  "For string inputs. With a text put before, the ASTs are compared except for their positions (C69 says what those can influence). C79_before needs a grammar without look-behinds, Start and WordBoundary: for these C79_look_back_refuted has witnesses.")
C("C80", "proved", "C80_same C80_static C80_csv C80_ranked C80_left_recursion_refuted C80_rules C80_formula_same C80_formula C80_constant_refuted",
  "Counted are the parser functions on the stack, not the bytes of the frames: how large a frame is and how large the stack may get is up to the Go runtime. C80_constant_refuted is for texts of opening parentheses only.")
C("C81", "proved", "C81_settles C81_cells C81_tables C81_readable_tables C81_once_refuted C81_unchanged_refuted",
  "Over the model of the CSV example; a row without text is an empty row or one with one empty cell.")
C("C82", "proved", "C82_errors C82_errors_back C82_formulas C82_machine C82_same C82_every_program C82_smallest_refuted",
  "The stack machine is a specification; the repository has none. C82_smallest_refuted marks the limit of C82_every_program.")
C("C83", "proved", "C83_join C83_errors C83_junk C83_lines C83_concatenation_refuted",
  "What a row of a text is comes from the reading relations of S_Csv, which C37 ties to the code. C83_concatenation_refuted shows why the conditions on rows without text are needed.")
C("C84", "proved", "C84_value C84_division C84_group C84_minus C84_panic C84_torpn C84_torpn_minus C84_bare_refuted C84_back_refuted",
  "Only texts that have a value (or panic) are put together; C84_back_refuted shows that texts with an error cannot be, C84_bare_refuted that the parentheses are needed.")
C("C85", "proved", "C85_spacing C85_unspaced C85_sign_refuted",
  "Only for texts that are accepted; in other texts the space decides where the error is reported. C85_sign_refuted shows why a sign that touches a number belongs to the token.")
C("C86", "proved", "C86_torpn C86_literal C86_parse_failed C86_formula C86_last_refuted",
  "The place is the one whose line and column the error states. C86_last_refuted: an unclosed parenthesis is reported behind the parenthesis although the whole text can be completed.")
C("C87", "proved", "C87_unclosed C87_final C87_prefix C87_cut_refuted C87_quote_refuted",
  "C87_cut_refuted: cut between the two bytes of a line break C2 85 a text is junk after the quote although the whole is accepted. C87_quote_refuted: a quote at the end of a text without an open quote may open one.")
C("C88", "proved", "C88_value C88_error C88_computed C88_torpn C88_inside_refuted C88_postfix_refuted",
  "C88_computed leaves out the smallest int64, which has no literal with a sign at the start of a text. C88_inside_refuted: 1)+(2 has the value 3 only inside parentheses and cannot be exchanged for 3.")
C("C89", "proved", "C89_shape C89_cells C89_blank C89_error C89_exchange C89_row C89_alone_refuted",
  "C89_alone_refuted: a text with a line break at its end is accepted as one row, but a comma after it starts a second row.")
C("C90", "proved", "C90_order C90_determined C90_crlf_refuted C90_before C90_embedded C90_cut_refuted",
  "C90_crlf_refuted: the positions before and behind the LF of a CRLF have the same line and column. C90_cut_refuted: when a CRLF is cut in two the lines do not add up.")
C("C91", "proved", "C91_formula C91_torpn C91_csv C91_position_refuted",
  "C91_position_refuted: with LF and with CR LF further up the message is the same and the position is not.")
C("C92", "proved", "C92_calls C92_depth",
  "The length is that of the whole text, not of what is read. Calls are counted as in C77 and depth as in C80.")
C("C93", "proved", "C93_kept C93_cells C93_valid C93_size C93_malformed_refuted",
  "C93_malformed_refuted: two malformed bytes become six in a cell.")
C("C94", "proved", "C94_numbers C94_numerals C94_operators C94_size",
  "the numerals of a text are given by a relation on its bytes alone (C94_numerals: total and unique)")
C("C95", "proved", "C95_dates C95_times C95_date_times C95_offsets_refuted C95_other_times_refuted",
  "the instants are values of an injective stand-in for time.Time, as in C49 to C51; the two refuted theorems show that the conditions are needed")
C("C25", "proved", "C25_group_flatgroup")

rows.sort(key=lambda r: r["property"])
with open(OUT, "w") as f:
    json.dump({"claims": rows}, f, indent=1)
    f.write("\n")
print(len(rows))
