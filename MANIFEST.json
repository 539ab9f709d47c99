{
 "claims": [
  {
   "property": "C01",
   "status": "proved",
   "theorems": [
    "C01_next_reads_text",
    "C01_next_any_position"
   ],
   "note": "byte-level model of StrStream::next"
  },
  {
   "property": "C02",
   "status": "proved",
   "theorems": [
    "C02_consume_prefix"
   ],
   "note": "UTF-8 prefix code argument"
  },
  {
   "property": "C03",
   "status": "proved",
   "theorems": [
    "C03_order_and_has_next"
   ],
   "note": ""
  },
  {
   "property": "C04",
   "status": "partial",
   "theorems": [
    "C04_location_partial",
    "C04_location_refuted",
    "C04_location_exact"
   ],
   "note": "true when no CR ends a line; false of the code for CRLF texts; exactly right until a carriage return that ends a line has been read"
  },
  {
   "property": "C05",
   "status": "partial",
   "theorems": [
    "C05_debug_exact",
    "C05_debug_partial",
    "C05_debug_refuted"
   ],
   "note": "false of the code: the 10-byte cut may fall inside a character; exact condition proved"
  },
  {
   "property": "C06",
   "status": "proved",
   "theorems": [
    "C06_farthest_error",
    "C06_farthest_is_max"
   ],
   "note": "all operation histories"
  },
  {
   "property": "C07",
   "status": "proved",
   "theorems": [
    "C07_into_result"
   ],
   "note": "for accepted grammars; externals total, consuming, deterministic"
  },
  {
   "property": "C08",
   "status": "proved",
   "theorems": [
    "C08_no_assertion"
   ],
   "note": "no fuel bound reaches a panic or an ill-formed operation; parsers under parsers_ok"
  },
  {
   "property": "C09",
   "status": "proved",
   "theorems": [
    "C09_peg_semantics",
    "C09_any_grammar"
   ],
   "note": "compiler correctness against Ford's semantics"
  },
  {
   "property": "C10",
   "status": "proved",
   "theorems": [
    "C10_modes_agree"
   ],
   "note": ""
  },
  {
   "property": "C11",
   "status": "proved",
   "theorems": [
    "C11_value",
    "C11_value_unique"
   ],
   "note": "value given by the relational specification ep"
  },
  {
   "property": "C12",
   "status": "proved",
   "theorems": [
    "C12_recognizers_call_no_action",
    "C12_actions_of_the_run",
    "C12_unit_is_silent",
    "C12_unit_expr_is_silent",
    "C12_action_after_operands"
   ],
   "note": ""
  },
  {
   "property": "C13",
   "status": "proved",
   "theorems": [
    "C13_and_predicate",
    "C13_not_predicate"
   ],
   "note": ""
  },
  {
   "property": "C14",
   "status": "proved",
   "theorems": [
    "C14_star_greedy",
    "C14_plus_greedy",
    "C14_plus_needs_one"
   ],
   "note": ""
  },
  {
   "property": "C15",
   "status": "proved",
   "theorems": [
    "C15_first_matching_branch",
    "C15_choice_fails_iff_all_fail"
   ],
   "note": ""
  },
  {
   "property": "C16",
   "status": "proved",
   "theorems": [
    "C16_optional_restores",
    "C15_first_matching_branch",
    "C14_star_greedy"
   ],
   "note": ""
  },
  {
   "property": "C17",
   "status": "proved",
   "theorems": [
    "C17_farthest_failure",
    "C17_errors_in_result"
   ],
   "note": ""
  },
  {
   "property": "C18",
   "status": "partial",
   "theorems": [
    "C18_failure_explained_partial",
    "C18_failure_explained_refuted",
    "C18_silence_exact",
    "C18_silence_source"
   ],
   "note": "false of the code when a negative predicate fails; proved for rules that use none; exactly: nothing is expected iff no terminal failed during the run"
  },
  {
   "property": "C19",
   "status": "proved",
   "theorems": [
    "C19_range_delimits",
    "C19_span_delimits",
    "C19_range_anywhere",
    "C19_span_anywhere"
   ],
   "note": "u32 truncation explicit in the span statement"
  },
  {
   "property": "C20",
   "status": "proved",
   "theorems": [
    "C20_termination",
    "C20_semantics_total"
   ],
   "note": ""
  },
  {
   "property": "C21",
   "status": "proved",
   "theorems": [
    "C21_left_recursion_rejected",
    "C21_no_evaluation_loop"
   ],
   "note": ""
  },
  {
   "property": "C22",
   "status": "proved",
   "theorems": [
    "C22_empty_repeat_rejected",
    "C22_empty_repeat_rejected_semantic"
   ],
   "note": ""
  },
  {
   "property": "C23",
   "status": "proved",
   "theorems": [
    "C23_rule_attributes_sound",
    "C23_expr_attributes_sound",
    "C23_dead_branch_rejected"
   ],
   "note": ""
  },
  {
   "property": "C24",
   "status": "proved",
   "theorems": [
    "C24_analysis_total",
    "C24_one_verdict"
   ],
   "note": ""
  },
  {
   "property": "C25",
   "status": "proved",
   "theorems": [
    "C25_parsing_terminates",
    "C25_accepted_iff_documented",
    "C25_class_denotation",
    "C25_class_end_to_end"
   ],
   "note": "reversed intervals are accepted and match nothing"
  },
  {
   "property": "C26",
   "status": "proved",
   "theorems": [
    "C26_class_condition",
    "C26_class_compiles"
   ],
   "note": ""
  },
  {
   "property": "C27",
   "status": "partial",
   "theorems": [
    "C27_rendering_exact",
    "C27_names_distinct",
    "C27_names_distinct_refuted",
    "C27_not_a_template_name",
    "C27_no_shadowing",
    "C27_function_names"
   ],
   "note": "distinct below 187264 variable prefixes in one function; the 187264th prefix is 'mark', so false beyond"
  },
  {
   "property": "C28",
   "status": "partial",
   "theorems": [
    "C28_recognizer_names_bound",
    "C28_parser_names_bound_partial",
    "C28_parser_names_bound_refuted",
    "C28_parsers_source_partial",
    "C28_parser_names_exact",
    "C28_void_decided",
    "C28_parsers_exact_partial",
    "C28_source_refuted"
   ],
   "note": "recognizers always; parsers: an exact criterion on typed grammars (C28_parser_names_exact) and on sources with settled types and plain choices (C28_parsers_exact_partial), a simple sufficient one (every action above a choice is in a safe position); false in general (closures leak outer variables: C28_source_refuted); C28_parsers_source_partial states the condition on the source text (settled types, plain choices, tidy actions)"
  },
  {
   "property": "C29",
   "status": "partial",
   "theorems": [
    "C29_recognizers_generated",
    "C29_codegen_no_panic_partial",
    "C29_codegen_no_panic_refuted"
   ],
   "note": "recognizers always; parsers when a rule with data does not depend for its type on itself through another rule, calls itself in at most one operand of each sequence and in choices with as many values as the rule, and when no choice of several values has an external branch; false otherwise (one witness for each condition on the rule itself: raG, rcG, exG)"
  },
  {
   "property": "C30",
   "status": "proved",
   "theorems": [
    "C30_rules",
    "C30_functions"
   ],
   "note": ""
  },
  {
   "property": "C31",
   "status": "proved",
   "theorems": [
    "C31_resolution",
    "C31_lookups_succeed"
   ],
   "note": ""
  },
  {
   "property": "C32",
   "status": "proved",
   "theorems": [
    "C32_sequence_type",
    "C32_values_exist",
    "C32_flat_types"
   ],
   "note": ""
  },
  {
   "property": "C33",
   "status": "partial",
   "theorems": [
    "C33_choice_type",
    "C33_duplicate_branch",
    "C33_rust_types_refuted"
   ],
   "note": "exact up to Rust types, any two of which are taken as equal by the code (left to rustc)"
  },
  {
   "property": "C34",
   "status": "proved",
   "theorems": [
    "C34_recursive_types_removed",
    "C34_all_types_resolved",
    "C34_no_unknown_type"
   ],
   "note": ""
  },
  {
   "property": "C35",
   "status": "partial",
   "theorems": [
    "C35_rewrites_preserve_partial",
    "C35_plus_star",
    "C35_no_warning_no_chain",
    "C35_rewrites_preserve_refuted",
    "C35_first_operand_refuted"
   ],
   "note": "false of the code for (e+)* and for patterns found in the first operand of a sequence; proved, for whole grammars, for every other line of the table when the inner operator is reached through actions, ascriptions, spans, ranges and rule calls"
  },
  {
   "property": "C36",
   "status": "proved",
   "theorems": [
    "C36_chaining_terminates"
   ],
   "note": ""
  },
  {
   "property": "C37",
   "status": "partial",
   "theorems": [
    "C37_levels_accumulate_partial",
    "C37_levels_accumulate_refuted",
    "C37_levels_exact",
    "C37_levels_nothing"
   ],
   "note": "false of the code: debug then show, or the same attribute twice, gives nothing; the sequences for which the level is right are characterised exactly"
  },
  {
   "property": "C38",
   "status": "proved",
   "theorems": [
    "C38_round_trip",
    "C38_accepted_is_documented",
    "C38_terminates",
    "C38_arena",
    "C38_parsed",
    "C38_read",
    "C38_canonical_read",
    "C38_well_built",
    "C38_span_first",
    "C38_span_inside_sequence_refuted"
   ],
   "note": "round trip for every canonical tree and every grammar, soundness against the documented syntax, totality and arena shape are proved; the parsers of Rust types and items (crate syn) are parameters that read at least one token and no type starts with a colon; the announced rejection of a span inside a sequence is false of the code"
  },
  {
   "property": "C39",
   "status": "partial",
   "theorems": [
    "C39_file_map_span",
    "C39_line_starts_partial",
    "C39_line_starts_refuted",
    "C39_line_starts_exact"
   ],
   "note": "spans proved below 4GiB; line starts wrong exactly when a CRLF is followed by text"
  },
  {
   "property": "C40",
   "status": "partial",
   "theorems": [
    "C40_macro_recognizers",
    "C40_recognizer_size",
    "C40_macro_parsers_partial",
    "C40_parser_size_partial",
    "C40_macro_exponential",
    "C40_parser_size_refuted"
   ],
   "note": "recognizers, from the source, for every accepted grammar: size <= nodes*(10*nesting+22); parsers, from the source of the grammars of C56, when no choice ends the operand of an action that other expressions follow: size <= 1+nodes*(10*(nesting+1)*(values+1)+12); exponential otherwise (proved family, also from the source)"
  },
  {
   "property": "C41",
   "status": "proved",
   "theorems": [
    "C41_user_stream",
    "C41_default_stream"
   ],
   "note": ""
  },
  {
   "property": "C42",
   "status": "partial",
   "theorems": [
    "C42_action_not_captured_partial",
    "C42_action_not_captured_refuted"
   ],
   "note": "false of the code: an action named like a generated local (b0) is captured; proved for action names not ending with a digit and not 'x'"
  },
  {
   "property": "C43",
   "status": "proved",
   "theorems": [
    "C43_analysis_verdict"
   ],
   "note": "the crate `partial` is modelled from its documentation"
  },
  {
   "property": "C44",
   "status": "partial",
   "theorems": [
    "C44_terminates",
    "C44_verdict_partial",
    "C44_verdict_refuted",
    "C44_types_order_refuted"
   ],
   "note": "terminates on every grammar of the parser, with a stated bound; answers (no panic), in every order of the rules, when no rule depends for its type on itself through another rule; false otherwise: a panic that depends on the order of two mutually recursive rules, and a rule whose type depends on the order of the rules"
  },
  {
   "property": "C45",
   "status": "partial",
   "theorems": [
    "C45_macro",
    "C45_macro_read",
    "C45_recognizers",
    "C45_recognizers_read",
    "C45_printed",
    "C45_one_outcome",
    "C45_middle_accepts",
    "C45_parsers_partial",
    "C45_parsers_read_partial",
    "C45_macro_parsers_partial",
    "C45_macro_parsers_read_partial"
   ],
   "note": "recognizers without condition; parsers under the conditions of C28 and C29, without which the claim is false of the code"
  },
  {
   "property": "C46",
   "status": "partial",
   "theorems": [
    "C46_one_outcome",
    "C46_where_it_panics",
    "C46_no_panic_partial",
    "C46_no_panic_source_partial"
   ],
   "note": "termination, uniqueness and the origin of panics are proved for every token stream; absence of panics under the conditions of C29 and C44, without which it is false of the code; C46_no_panic_source_partial states those conditions on the source text"
  },
  {
   "property": "C47",
   "status": "proved",
   "theorems": [
    "C47_module"
   ],
   "note": "functions come in source order (the code iterates over a HashMap: some order)"
  },
  {
   "property": "C48",
   "status": "partial",
   "theorems": [
    "C48_constant_types",
    "C48_unit_operands",
    "C48_operator_types"
   ],
   "note": "the operators with a type of their own and the absence of data below an expression without data: every grammar; the operators typed by their operands: in the rules whose type does not depend on itself through another rule, and that call themselves in at most one operand of each sequence (C29_codegen_no_panic_refuted shows it false of the code otherwise)"
  },
  {
   "property": "C49",
   "status": "partial",
   "theorems": [
    "C49_history",
    "C49_misuse",
    "C49_extracted",
    "C49_unwrapped",
    "C49_reads",
    "C49_result",
    "C49_expectation",
    "C49_error_after_success_refuted"
   ],
   "note": "everything for every history, but for the last clause which is false of the code: an error reported after a success keeps the value and into_result gives a success; states of one type of data (success and failure may change it in the code)"
  },
  {
   "property": "C50",
   "status": "partial",
   "theorems": [
    "C50_ascribed_operand",
    "C50_signature_exists",
    "C50_value_type_partial",
    "C50_parsers_partial",
    "C50_external_branch_refuted",
    "C50_declared",
    "C50_macro_partial"
   ],
   "note": "the signature exists for every accepted grammar; the values are of that type under the conditions of C29, when a choice with a foreign branch has a foreign type (otherwise the type written may not be that of the foreign value: witness)"
  },
  {
   "property": "C51",
   "status": "partial",
   "theorems": [
    "C51_mutual_recognizers",
    "C51_mutual_parsers_partial",
    "C51_mutual_loop",
    "C51_recognizers",
    "C51_parsers_partial",
    "C51_consuming",
    "C51_chains"
   ],
   "note": "any number of modules that call each other, provided no recursion through several modules is without consuming (needed: C51_mutual_loop); recognizers without condition on types, parsers under the conditions of C56"
  },
  {
   "property": "C52",
   "status": "proved",
   "theorems": [
    "C52_past_errors"
   ],
   "note": ""
  },
  {
   "property": "C53",
   "status": "partial",
   "theorems": [
    "C53_recognizers",
    "C53_parsers_partial",
    "C53_recognizer_refs",
    "C53_parser_refs",
    "C53_parser_moves_partial",
    "C53_choices_last_fit",
    "C53_parsers_exact_partial",
    "C53_refs_refuted",
    "C53_moves_refuted",
    "C53_predicate_moves_refuted"
   ],
   "note": "recognizers: moves always right, &mut parameters by an exact criterion on the source; parsers: exact criterion for &mut on typed grammars, sufficient conditions for moves; false of the code in general (witnesses)"
  },
  {
   "property": "C54",
   "status": "proved",
   "theorems": [
    "C54_verdict",
    "C54_printed",
    "C54_macro_accepts",
    "C54_macro_rejects"
   ],
   "note": "the five defects are specified on the syntax trees (TreeWf.well_formed)"
  },
  {
   "property": "C55",
   "status": "proved",
   "theorems": [
    "C55_verdict_order",
    "C55_recognizers_order",
    "C55_errors_order",
    "C55_parsers_order_partial"
   ],
   "note": "with C54_verdict; the types and the parsers may depend on the order in general (C44_types_order_refuted), not under the conditions of C56_parsers_partial"
  },
  {
   "property": "C56",
   "status": "partial",
   "theorems": [
    "C56_recognizer_errors",
    "C56_parsers_partial"
   ],
   "note": "the recognizers: every accepted source.  The parsers: for the sources in which the type of no rule depends on itself (but for rules that only recognise), no choice mixes values of external types with tuples, and either actions stand where their variables reach (tidy) or the generated parsers name only bound variables; all conditions are on the source.  Missing: the sources for which the generated parsers do not compile or are not typable (C28, C29) and recursive types"
  },
  {
   "property": "C57",
   "status": "partial",
   "theorems": [
    "C57_signature_partial",
    "C57_values_partial",
    "C57_parser_values_partial"
   ],
   "note": "for sources in which the type of no rule depends on itself (but for rules that only recognise) and no choice mixes external values with tuples, characters, vectors or options; the names of Rust types are forgotten (C50_declared keeps them for rules that tell them); the values of runs also need tidy actions (C28)"
  },
  {
   "property": "C58",
   "status": "partial",
   "theorems": [
    "C58_recognizers",
    "C58_parsers_partial",
    "C58_mixed_refuted"
   ],
   "note": "recognizers: every accepted source.  Parsers: for the sources of C57, by an exact criterion on the source (names_fit, C28).  The functions of actions take the values of their operands, by TreeShapes from the source.  The names of Rust types are forgotten; a choice that mixes an external value with a value Oak builds is only right if the types happen to agree (witness)"
  },
  {
   "property": "C59",
   "status": "partial",
   "theorems": [
    "C59_typed_module",
    "C59_recognizers",
    "C59_linked_recognizers",
    "C59_linked_modules",
    "C59_types",
    "C59_parsers_partial",
    "C59_mixed_refuted",
    "C59_leak_refuted"
   ],
   "note": "any well-typed module: C59_typed_module (data and arguments of actions).  Recognizers: every accepted source.  Parsers: for the sources of C57 whose rules fit (names_fit); beyond them it is false of the code (C59_leak_refuted, C59_mixed_refuted)"
  },
  {
   "property": "C60",
   "status": "proved",
   "theorems": [
    "C60_errors_true",
    "C60_errors_complete",
    "C60_errors_verdict",
    "C60_loop_refuted",
    "C60_left_refuted"
   ],
   "note": "errors without their texts and spans; the meaning of each message is stated with Ford's semantics of the source trees; the two _refuted theorems show that the stronger readings of two messages are false of the code (false alarms)"
  },
  {
   "property": "C61",
   "status": "proved",
   "theorems": [
    "C61_verdict",
    "C61_expanded",
    "C61_module"
   ],
   "note": "for sources in which no rule needs its own type (for the others the verdict may depend on the order of the rules, C44); the types and the places are specified in TypeSpec.v; C61_rejected_case shows three rejected rules, one of them surprising (finding 22)"
  },
  {
   "property": "C62",
   "status": "proved",
   "theorems": [
    "C62_signatures"
   ],
   "note": "for sources in which no rule needs its own type; unlike C57, with the names of Rust types (TypeSpec.has, PropertiesTypes.written and source_facts); C62_case: a span, a list and a boxed action"
  },
  {
   "property": "C63",
   "status": "partial",
   "theorems": [
    "C63_warnings",
    "C63_quiet",
    "C63_attributes",
    "C63_silent_refuted"
   ],
   "note": "everything but the last clause, which is false of the code: r = . r? is replaced by (^) without a warning (C63_silent_refuted). The path is shown against the direction of the calls (C63_case)"
  },
  {
   "property": "C64",
   "status": "proved",
   "theorems": [
    "C64_advice",
    "C64_macro",
    "C64_one",
    "C64_where"
   ],
   "note": "the specification is the inductive relation advice of PropertiesAdvice.v; C64_where reads it as a set; C64_case: a source with advice given and withheld. Spans and texts are not modelled: a warning is located by the expression it is on"
  },
  {
   "property": "C65",
   "status": "proved",
   "theorems": [
    "C65_units",
    "C65_quiet",
    "C65_calls",
    "C65_returnless",
    "C65_never_called_refuted"
   ],
   "note": "specification: valueless, seen, opened of PropertiesUnit.v, within of TreeWf.v; the report is a list of places in the arena with the names of the functions; that every occurrence, and not only every name, is reported is UnitTop.notes_exact, on the arena. C65_case: a source with two reports and an unreported action under a predicate. Actions below a typed expression or a range are reported only where it is not itself under a unit type: only the upper bound is stated for them. C65_calls: the log of any run that ends, from any state and with any functions outside of the module; C65_returnless is the true half of the text of the error, C65_never_called_refuted: it is false for functions that return ()"
  },
  {
   "property": "C66",
   "status": "proved",
   "theorems": [
    "C66_locality",
    "C66_closed",
    "C66_removed",
    "C66_recognizers",
    "C66_parsers_partial"
   ],
   "note": "specification: leads, asks of PropertiesLocality.v, within of TreeWf.v, rule_called of TreeSpec.v; the first three are about the emitted functions as programs (any fuel, any state, also when they do not end or panic); C66_recognizers compares two sources, under `outside` as C45. C66_parsers_partial adds the parsers of two sources (values, actions), under the conditions of C56_parsers_partial on both, met in C66_values_case; that the declared types agree is not stated. C66_case: a source with a rule that calls outside and one that does not; C66_counts: a rule led to does count"
  }
 ]
}