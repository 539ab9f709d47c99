{"id": "C01", "title": "Reading a string stream yields exactly its characters", "statement": "Calling next() repeatedly on the stream of any string returns the characters of the string in order, then None forever; it never panics (no slice is ever taken inside a character), and after every call the byte offset is the UTF-8 length of the characters already returned.", "quantifier": "every string of Unicode scalar values and every number of next() calls", "why_tests_cant": "tests read a few ASCII strings; panics of byte slicing only show for particular multi-byte inputs and offsets", "anchors": ["runtime/src/str_stream.rs: StrStream::next", "runtime/src/str_stream.rs: StrStream::current_char"]}
{"id": "C02", "title": "consume_prefix consumes exactly a literal prefix or nothing", "statement": "consume_prefix(p) returns true iff the characters of p are a prefix of the unread characters; then exactly those characters are consumed; otherwise it returns false and the stream is unchanged. Although the comparison is on bytes it can never match in the middle of a character nor leave the stream there.", "quantifier": "every text, every position between two characters, every literal", "why_tests_cant": "byte comparison versus characters only differs on multi-byte texts; an exhaustive set of texts is infinite", "anchors": ["runtime/src/str_stream.rs: consume_prefix", "runtime/src/stream.rs: ConsumePrefix"]}
{"id": "C03", "title": "Stream order and has_next agree with what was read", "statement": "Two positions of one stream compare exactly as the numbers of characters read so far, and has_next() is true iff the next call to next() returns a character.", "quantifier": "every text and every two positions reachable by next/consume_prefix", "why_tests_cant": "needs all pairs of reachable positions of all texts", "anchors": ["runtime/src/str_stream.rs: PartialEq/Ord/HasNext"]}
{"id": "C04", "title": "Reported line and column", "statement": "The location of a position is the 1-based line number (one plus the number of line feeds before it) and the 1-based byte column in that line.", "quantifier": "every text and every position", "why_tests_cant": "existing behaviour depends on terminators (LF, CRLF, missing final newline) and position; tests cover none of the combinations", "anchors": ["runtime/src/str_stream.rs: line_column, location"]}
{"id": "C05", "title": "Formatting an error never panics", "statement": "Printing a ParseExpectation / ParseResult (Debug), which takes a snippet of at most 10 bytes at the farthest position, never panics, and the snippet is a prefix of the unread text.", "quantifier": "every text and every position", "why_tests_cant": "the failing cases need a multi-byte character straddling a particular byte offset", "anchors": ["runtime/src/str_stream.rs: code_snippet", "runtime/src/parse_state.rs: Debug for ParseExpectation"]}
{"id": "C06", "title": "The error record is the farthest failure with everything expected there", "statement": "After any sequence of error reports at any positions, the reported position is the maximum of the initial position and all reported positions, and the expectation list is, in order, exactly the messages reported at that position (empty when no error was reported there).", "quantifier": "every history of error()/mark/restore/success/failure operations", "why_tests_cant": "invariant over unbounded histories", "anchors": ["runtime/src/parse_state.rs: error, success, failure, restore, restore_from_failure"]}
{"id": "C07", "title": "into_result classifies terminal states exactly", "statement": "For a state produced by a generated parser: Success iff the rule matched and all input was read, Partial iff it matched and input remains, Failure iff it did not match; the assertion in into_result never fires on such states.", "quantifier": "every rule, every input", "why_tests_cant": "needs every terminal state reachable from generated code", "anchors": ["runtime/src/parse_state.rs: into_result"]}
{"id": "C08", "title": "Generated code never trips a runtime assertion", "statement": "While running the code generated for any rule, no assertion of ParseState (mark on failed state, restore of successful state, restore with data, extract_data without data) ever fires.", "quantifier": "every grammar that the code generator compiles, every rule and every input", "why_tests_cant": "depends on all reachable intermediate states of arbitrary nested combinators", "anchors": ["runtime/src/parse_state.rs: mark, restore_from_failure, restore, extract_data", "src/liboak/back/compiler/*.rs"]}
{"id": "C09", "title": "Generated recognizers implement PEG semantics", "statement": "For every rule r, recognize_r on an input succeeds having consumed exactly the prefix that Ford's PEG semantics assigns to r's expression, and fails when that semantics says fail.", "quantifier": "every resolved grammar, rule and input", "why_tests_cant": "compiler correctness: quantifies over all grammars and all inputs", "anchors": ["src/liboak/back/compiler/*.rs", "src/liboak/back/context.rs"]}
{"id": "C10", "title": "Parser and recognizer of a rule agree", "statement": "parse_r succeeds on an input iff recognize_r does, and consumes the same prefix, and records the same error information.", "quantifier": "every grammar with coherent types, every rule and input", "why_tests_cant": "two separately generated functions compared on all grammars and inputs", "anchors": ["src/liboak/back/compiler/rule.rs: compile_recognizer, compile_parser", "src/liboak/back/compiler/mod.rs"]}
{"id": "C11", "title": "Parsers build the AST value the operators describe", "statement": "The value returned by parse_r is the one given compositionally by the rule: a char for a class or '.', a Vec in matching order for * and +, Some/None for ?, components in source order for a sequence, the taken branch's value for a choice, the action applied to the components for > f, the callee's value for a rule call.", "quantifier": "every grammar with coherent types whose generated names resolve, every rule and input", "why_tests_cant": "needs all grammars (variable numbering, scopes, closures) and all inputs", "anchors": ["src/liboak/back/context.rs: value_constructor, next_free_var, open_scope, close_scope", "src/liboak/back/compiler/*.rs"]}
{"id": "C12", "title": "Semantic actions run only for data that is built, in order, once", "statement": "Recognizers, syntactic predicates and unit-typed expressions never call a semantic action; in a parser an action runs exactly once each time its expression matches on the executed path, after the actions of its operands, left to right.", "quantifier": "every grammar, rule, input", "why_tests_cant": "the trace of calls depends on all backtracking histories", "anchors": ["src/liboak/back/compiler/semantic_action.rs", "src/liboak/back/compiler/mod.rs: recognizer_compiler"]}
{"id": "C13", "title": "Predicates look ahead without consuming", "statement": "&e and !e never consume input: after either succeeds the rest of the rule continues at the position where the predicate started; &e succeeds iff e matches there and !e iff it does not.", "quantifier": "every expression e, context, input", "why_tests_cant": "all e and all inputs", "anchors": ["src/liboak/back/compiler/syntactic_predicate.rs"]}
{"id": "C14", "title": "Repetition is greedy", "statement": "e* matches e as many times as possible (the remaining input does not match e), e+ is the same but fails when e does not match once; no iteration's partial progress is left consumed.", "quantifier": "every e, every input, any number of iterations", "why_tests_cant": "unbounded iteration count", "anchors": ["src/liboak/back/compiler/repeat.rs"]}
{"id": "C15", "title": "Ordered choice commits to the first matching branch", "statement": "e1 / ... / en behaves as the first branch that matches at the current position; later branches are not tried even if what follows the choice fails.", "quantifier": "every choice, every continuation after it, every input", "why_tests_cant": "continuations are arbitrary because code is compiled in continuation-passing style and shared through closures", "anchors": ["src/liboak/back/compiler/choice.rs", "src/liboak/back/context.rs: success_as_closure"]}
{"id": "C16", "title": "Backtracking restores the position", "statement": "When a branch, an optional or a repetition body fails, the next alternative starts at exactly the position where the failed one started, whatever the failed part had consumed.", "quantifier": "every grammar and input", "why_tests_cant": "all failure points inside arbitrary expressions", "anchors": ["src/liboak/back/compiler/choice.rs", "src/liboak/back/compiler/optional.rs", "src/liboak/back/compiler/repeat.rs", "runtime/src/parse_state.rs: restore_from_failure"]}
{"id": "C17", "title": "A failed or partial parse reports the farthest failure of the whole run", "statement": "The error information of the result is determined by the sequence of all terminal failures met during the parse (including those inside successful branches, predicates and called rules): its position is the farthest one and its expectations are those reported there.", "quantifier": "every grammar, rule, input", "why_tests_cant": "history property of all runs", "anchors": ["runtime/src/parse_state.rs: error", "src/liboak/back/compiler/str_literal.rs", "src/liboak/back/compiler/character_class.rs", "src/liboak/back/compiler/any_single_char.rs"]}
{"id": "C18", "title": "A failure always says what was expected", "statement": "Whenever a generated parser fails, the set of expected items it reports is not empty.", "quantifier": "every grammar, rule and input that fails", "why_tests_cant": "depends on every failing run", "anchors": ["runtime/src/parse_state.rs: ParseExpectation", "src/liboak/back/compiler/syntactic_predicate.rs"]}
{"id": "C19", "title": "Spans and ranges delimit exactly the matched text", "statement": "The range produced by '... e' has as start and end exactly the positions before and after the text matched by e, and '.. e' gives these two byte offsets as 32-bit span bounds followed by e's value.", "quantifier": "every e, input, context", "why_tests_cant": "all inputs and nestings, including spans crossing choices compiled to closures", "anchors": ["src/liboak/back/compiler/spanned_expr.rs", "runtime/src/str_stream.rs: stream_span", "runtime/src/lib.rs: make_span"]}
{"id": "C20", "title": "Accepted grammars terminate", "statement": "If the well-formedness analysis accepts a grammar, every recognizer and parser generated from it terminates on every input (external rules being total and consuming when they succeed).", "quantifier": "every accepted grammar, rule, input", "why_tests_cant": "termination over all inputs is not testable", "anchors": ["src/liboak/middle/analysis/well_formedness.rs"]}
{"id": "C21", "title": "Left recursion is always rejected", "statement": "If some rule can reach itself through calls that need not consume input before the call, the analysis rejects the grammar.", "quantifier": "every grammar with resolved calls", "why_tests_cant": "all cycles through all operators", "anchors": ["src/liboak/middle/analysis/well_formedness.rs: visit_rule, error_left_recursion"]}
{"id": "C22", "title": "Non-consuming repetition is always rejected", "statement": "If the body of some reachable e* or e+ can succeed without consuming input, the analysis rejects the grammar.", "quantifier": "every grammar", "why_tests_cant": "semantic property of all inputs of all grammars", "anchors": ["src/liboak/middle/analysis/well_formedness.rs: visit_repeat"]}
{"id": "C23", "title": "Analysis verdicts are semantically sound", "statement": "In an accepted grammar no branch of a choice other than the last is one that can never fail, and the attributes computed are sound: an expression judged unable to fail never fails, one judged to always consume never succeeds without consuming, one judged never to consume never consumes.", "quantifier": "every accepted grammar, expression, input", "why_tests_cant": "for all inputs", "anchors": ["src/liboak/middle/analysis/well_formedness.rs: WFA"]}
{"id": "C24", "title": "The analysis itself terminates and its assertions hold", "statement": "The well-formedness analysis terminates on every grammar (its fixpoint iteration and its traversal of rule cycles are bounded) and neither of its internal assertions can fire.", "quantifier": "every resolved grammar", "why_tests_cant": "termination and assertion freedom for all grammars", "anchors": ["src/liboak/middle/analysis/well_formedness.rs: visit_rules, visit_expr"]}
{"id": "C25", "title": "Character class syntax denotes the documented set", "statement": "A class string is split left to right into 'a-b' intervals and single characters, '-' being literal only first or last; misplaced '-' is rejected, and the class accepts exactly the union of these; parsing never loops.", "quantifier": "every class string", "why_tests_cant": "all strings", "anchors": ["src/liboak/front/parser.rs: parse_set_of_char_range, parse_char_range"]}
{"id": "C26", "title": "Generated class tests match exactly the class", "statement": "The condition generated for a class is true of a character iff it lies in one of its intervals, for any non-empty list of intervals; code generation does not panic on any class the front end accepts.", "quantifier": "every class accepted by the front end and every character", "why_tests_cant": "all classes, 1.1M characters", "anchors": ["src/liboak/back/compiler/character_class.rs"]}
{"id": "C27", "title": "Generated local names never collide", "statement": "All variable, mark, branch-failed, counter and closure identifiers generated for one function are pairwise distinct.", "quantifier": "every sequence of name requests", "why_tests_cant": "unbounded sequences; collisions appear only for huge counters", "anchors": ["src/liboak/back/name_factory.rs"]}
{"id": "C28", "title": "Generated code has no unbound name", "statement": "Every identifier used in the code generated for a rule, including inside shared continuation closures, is bound at its use.", "quantifier": "every grammar with coherent types", "why_tests_cant": "depends on all nestings of choices, scopes and actions", "anchors": ["src/liboak/back/context.rs: success_as_closure, closure_params, closure_args, open_scope"]}
{"id": "C29", "title": "Code generation does not panic on a grammar accepted by typing", "statement": "If type inference accepts a grammar then generating its recognizers and parsers never hits an internal panic (all free variables bound / not all bound, unreachable!).", "quantifier": "every grammar accepted by the typing phase", "why_tests_cant": "all typed grammars", "anchors": ["src/liboak/back/context.rs: next_free_var, close_scope, next_free_var_skip", "src/liboak/back/compiler/mod.rs: parser_compiler"]}
{"id": "C30", "title": "Duplicate definitions are always detected", "statement": "Rule (and Rust function) definitions are accepted iff their names are pairwise distinct, and the kept definitions are the first of each name, in order.", "quantifier": "every list of definitions", "why_tests_cant": "all lists", "anchors": ["src/liboak/middle/analysis/duplicate.rs"]}
{"id": "C31", "title": "Rule calls resolve to local rules first", "statement": "After resolution every reachable single-identifier call naming a declared rule is a call to that rule, every other call is external, and nothing else in the grammar changes; afterwards every rule lookup succeeds.", "quantifier": "every grammar", "why_tests_cant": "all grammars", "anchors": ["src/liboak/middle/analysis/resolve_non_terminal.rs", "src/liboak/ast.rs: find_rule_by_ident"]}
{"id": "C32", "title": "Tuple types are flattened and contain no unit", "statement": "The type given to a sequence lists the flattened non-unit component types in order; it is the component itself when there is just one, and unit/invisible when there is none.", "quantifier": "every list of component types", "why_tests_cant": "all type lists", "anchors": ["src/liboak/middle/typing/type_rewriting.rs: reduce_tuple, tuple_inlining, tuple_invisible, tuple_unit"]}
{"id": "C33", "title": "Choice branches must agree on a type", "statement": "A choice is accepted iff after ignoring recursive unit-paths all branches have one same type, or are all unit-like, or an external type meets one other type; the type given is that common type, independent of duplicate branches.", "quantifier": "every list of branch types", "why_tests_cant": "all lists", "anchors": ["src/liboak/middle/typing/type_rewriting.rs: reduce_sum"]}
{"id": "C34", "title": "Type inference leaves no unresolved type", "statement": "When type inference accepts a grammar no expression reachable from a rule keeps an uninferred or recursive type, the unreachable! panics of the final reduction are not reached, and no rule's type mentions an unknown external type.", "quantifier": "every accepted grammar", "why_tests_cant": "all grammars", "anchors": ["src/liboak/middle/typing/depth.rs", "src/liboak/middle/typing/type_rewriting.rs: reduce_final"]}
{"id": "C35", "title": "Suggested rewrites preserve the language", "statement": "Each rewriting proposed by the useless-chaining warning (!!e to &e, &&e to &e, !&e to !e, &!e to !e, e?? to e?, (e+)? to e*, (e*)? to e*, (e+)+ to e+, (e+)* to e+, (e*)* to e*) recognises exactly the same inputs with the same consumption.", "quantifier": "every e and input", "why_tests_cant": "equivalence over all inputs", "anchors": ["src/liboak/middle/analysis/useless_chaining.rs: check_chain"]}
{"id": "C36", "title": "The chaining analysis terminates on well-formed grammars", "statement": "On a grammar accepted by the well-formedness analysis the useless-chaining analysis terminates (it follows rule calls while looking for an inner operator) and does not panic.", "quantifier": "every accepted grammar", "why_tests_cant": "all grammars with recursion", "anchors": ["src/liboak/middle/analysis/useless_chaining.rs: InnerPredicateOrRepeat"]}
{"id": "C37", "title": "Typing attributes accumulate", "statement": "Giving several show_typing/debug_typing attributes yields the most verbose requested level, in any order.", "quantifier": "every list of attributes", "why_tests_cant": "all attribute lists", "anchors": ["src/liboak/middle/analysis/ast.rs: PrintLevel::merge", "src/liboak/middle/analysis/attribute.rs"]}
{"id": "C38", "title": "The grammar syntax is parsed with the documented precedence", "statement": "Printing any expression tree in Oak's concrete syntax with the documented precedences (postfix *,+,? over prefix !,& over :type over sequence over ../... over > over /) and parsing it back yields the same tree; every sub-expression is allocated before its parent, so expression indices are acyclic and in bounds.", "quantifier": "every expression tree", "why_tests_cant": "all trees", "anchors": ["src/liboak/front/parser.rs", "src/liboak/front/ast.rs: alloc_expr"]}
{"id": "C39", "title": "File-map spans are absolute positions", "statement": "A span taken on a file-map stream is the file's start position plus the byte offsets in it, and the registered line starts are exactly the positions following line feeds.", "quantifier": "every source text and start position", "why_tests_cant": "all texts, including CRLF", "anchors": ["runtime/src/file_map_stream.rs: abs_pos, register_lines"]}
{"id": "C40", "title": "Generated code size is linear", "statement": "The success continuation is not duplicated by choices: the size of the code generated for a rule grows at most proportionally to the size of the rule times its nesting, not exponentially.", "quantifier": "every rule", "why_tests_cant": "asymptotic claim over all grammars", "anchors": ["src/liboak/back/mod.rs", "src/liboak/back/context.rs: do_not_duplicate_success, success_as_closure"]}
{"id": "C41", "title": "A redefined Stream type is honoured", "statement": "If the user's Rust items contain a type alias named Stream, the first such alias is the stream type of every generated function and no second alias is emitted; otherwise exactly one default alias is added.", "quantifier": "every list of Rust items", "why_tests_cant": "all item lists", "anchors": ["src/liboak/middle/mod.rs: extract_stream_type"]}
{"id": "C42", "title": "Semantic actions are never captured by generated local names", "statement": "A call of a user's semantic action in the generated code refers to the user's function: no local variable, mark, flag, counter or closure introduced by the generator in scope at the call has the action's name.", "quantifier": "every grammar, rule and action name", "why_tests_cant": "all generated name sequences against all action names", "anchors": ["src/liboak/back/name_factory.rs: fresh_vars, next_var_prefix", "src/liboak/back/compiler/semantic_action.rs"]}
{"id": "C43", "title": "The analysis phase has one verdict and what it accepts is fit for generation", "statement": "For every parsed grammar the analysis phase (duplicates, resolution, well-formedness, chaining, attributes, stream type) finishes without panic; it rejects iff there is no rule, two rules or two Rust functions share a name, or the resolved grammar is not well formed; an accepted grammar keeps all its rules, in order, with every call resolved.", "quantifier": "every parsed grammar", "why_tests_cant": "composition of the passes over all grammars, including erroneous ones", "anchors": ["src/liboak/middle/mod.rs: typecheck, at_least_one_rule_declared", "src/liboak/middle/analysis/mod.rs: analyse"]}
{"id": "C44", "title": "Type inference answers on every analysed grammar, whatever the order of its rules", "statement": "On every grammar accepted by the analyses, type inference terminates with a verdict (accepted with types, or rejected with diagnostics) and does not panic; reordering the rules does not turn acceptance into a panic.", "quantifier": "every analysed grammar and order of rules", "why_tests_cant": "all recursion patterns between rules; the panicking pattern needs two mutually recursive rules visited in a given order", "anchors": ["src/liboak/middle/typing/surface.rs: visit_rule, infer_rec_type", "src/liboak/middle/typing/type_rewriting.rs: reduce_rec, reduce"]}
{"id": "C45", "title": "The generated module recognises the language the grammar text denotes", "statement": "Whenever the macro accepts a token stream, that stream has a reading in the documented syntax with distinct rule names, and for every rule n and every text, recognize_n returns, its result converts without a panic, it succeeds leaving the rest r exactly when Ford's semantics of the rule's syntax tree gives Some r, and fails exactly when it gives failure; that outcome is unique. parse_n does the same and returns the specified value after the specified action calls (except where the generated parser does not exist or does not compile).", "quantifier": "every token stream, every Rust type/item parser that reads at least one token, every text, every behaviour of external functions that return and consume", "why_tests_cant": "composes the parser, four analyses, type inference, code generation and run time over all grammars and all texts", "anchors": ["src/liboak/lib.rs: oak", "src/liboak/front/parser.rs", "src/liboak/middle/mod.rs: typecheck", "src/liboak/back/mod.rs: compile"]}
{"id": "C46", "title": "The macro always ends, with one outcome", "statement": "For every token stream the expansion of oak! terminates: it rejects with a diagnostic, panics, or produces a module; which of these does not depend on anything but the tokens. A panic can come only from type inference or from the generation of the parse function of a rule of a grammar that was read and analysed; without mutual type recursion, recursive rules with data and external branches of tuples there is none.", "quantifier": "every token stream and every parser of Rust types and items that reads at least one token", "why_tests_cant": "all token streams; termination composes five recursive passes", "anchors": ["src/liboak/lib.rs: oak", "src/liboak/middle/mod.rs: typecheck", "src/liboak/back/compiler/grammar.rs"]}
{"id": "C47", "title": "The module contains one recognizer and one parser per rule, and the user's items", "statement": "The generated module consists of the user's Rust items in their order, the default Stream alias exactly when the user gives none, then for each rule in source order one recognize_ and one parse_ function, then the user's functions; rule names and function names are distinct.", "quantifier": "every accepted token stream", "why_tests_cant": "all grammars", "anchors": ["src/liboak/back/compiler/grammar.rs: compile_mod_content, compile_rules", "src/liboak/back/compiler/rule.rs: compile", "src/liboak/middle/mod.rs: extract_stream_type"]}
{"id": "C48", "title": "Every expression has the type its operator says", "statement": "In a grammar accepted by type inference: literals and syntactic predicates have no data, any-character and classes have a character, an action has the return type of the user's function (boxed for >>), an ascribed expression the ascribed type, a range the range type, an unknown foreign function an unknown type unless an enclosing ascription tells it; repetitions have a list, options an option of their operand, calls the type of the called rule, sequences and spans the values of their operands joined, choices the type of a branch; below an expression without data nothing has data.", "quantifier": "every grammar, every environment of Rust functions, every expression", "why_tests_cant": "all nestings of operators and rules, with two passes that rewrite a shared table", "anchors": ["src/liboak/middle/typing/surface.rs", "src/liboak/middle/typing/depth.rs", "src/liboak/middle/typing/ast.rs: resolve_action_type", "src/liboak/middle/typing/type_rewriting.rs"]}
{"id": "C49", "title": "A parse state is what its history of operations says", "statement": "After any history of operations on a ParseState: it is failed iff error or failure came after the last success or restoration; it holds a value iff a success gave it and nothing took it away; it stands where the last read or restoration left it; an operation panics exactly on the documented misuses (marking a failed state, restoring over data, restoring a success from failure, extracting from a failed or empty state); into_result answers by the value held and what is left to read; its expectation holds the farthest position of the reported errors and exactly the messages reported there; an erroneous state holds no value.", "quantifier": "every finite history of ParseState operations", "why_tests_cant": "all interleavings of operations", "anchors": ["runtime/src/parse_state.rs: success, failure, error, mark, restore, restore_from_failure, into_result, extract_data, discard_data"]}
{"id": "C50", "title": "A parser's signature names the type of the values it returns", "statement": "For every grammar accepted by type inference the type the generator writes in the signature of parse_n exists (it is finite) and each value parse_n returns is of that type: () when there is no data, char, Vec, Option and tuples component by component, and a value made by the user's or another library's code where the type is a foreign one.", "quantifier": "every accepted grammar, rule, text and behaviour of external parsers", "why_tests_cant": "all types built by nesting, all values along all parses; an infinite type would make the macro overflow its stack", "anchors": ["src/liboak/back/compiler/rtype.rs: compile_type, list_type, optional_type, tuple_type", "src/liboak/back/context.rs: into_parser_function, into_parser_alias"]}
{"id": "C51", "title": "Rules imported from another Oak grammar behave as they are specified there", "statement": "In a grammar that calls rules of another module generated by oak! (`path::rule`), recognizing or parsing a rule gives the result of Ford's semantics in which the imported rule means its own expression in the other grammar, for the recognizers of all accepted grammars and, under the conditions on parsers, with the values and action calls; a chain of such imports satisfies the assumption (consume on success, return) that the left-recursion analysis makes of foreign functions as soon as the imported rules consume. The same holds of modules that import each other, provided that no rule reaches itself through them without consuming and that what is repeated consumes; the macro, which sees one grammar at a time, does not check this.", "quantifier": "every set of grammars that import each other, every text", "why_tests_cant": "all combinations of separately compiled grammars and all texts", "anchors": ["src/liboak/back/compiler/non_terminal.rs", "tests/grammars/calc3.rs", "README.md: external non-terminals"]}
{"id": "C52", "title": "What a rule answers does not depend on the errors recorded before", "statement": "Calling the generated function of a rule on a successful state gives the same success or failure, rest and value, whatever errors the state has recorded before; only the reported expectation changes.", "quantifier": "every accepted grammar, rule, text and previous errors", "why_tests_cant": "all histories of failures before the call", "anchors": ["runtime/src/parse_state.rs: error, join_errors", "src/liboak/back/compiler/non_terminal.rs"]}
{"id": "C53", "title": "The generated functions respect Rust's rules on &mut parameters and moves", "statement": "Every function of the generated module uses its closure parameters of type &mut T only as such (it does not assign, test or borrow them again) and uses no variable of a type that is not Copy after it may have been moved. Recognizers: the moves are always right, and the &mut parameters are right exactly when no choice followed by something in a sequence lies where the flag of an enclosing choice is still to be assigned. Parsers: when the choices of a sequence are in its last element (&mut), and when no sequence contains a choice (moves).", "quantifier": "every accepted token stream, every function of the module", "why_tests_cant": "all nestings of choices, sequences, options and actions; rustc reports it only for the grammar at hand", "anchors": ["src/liboak/back/context.rs: success_as_closure, closure_params, closure_args", "src/liboak/back/compiler/choice.rs", "src/liboak/back/compiler/optional.rs"]}
{"id": "C54", "title": "The analysis rejects a grammar exactly for its documented reasons", "statement": "A source that parses is accepted by the analysis if and only if it has a rule, its rule names are distinct, its function names are distinct, and none of these five defects occurs in its rules, where a call of an external rule is taken to consume and to fail sometimes: a rule reaches itself without consuming (left recursion); the operand of * or + may succeed without consuming; a branch of a choice that cannot fail is followed by another branch; the operand of ! cannot fail; an expression neither fails nor consumes anything (predicates only). Otherwise it gets diagnostics and no module. Nothing else is rejected, whatever the order in which rules are visited, and whatever cycles of calls there are.", "quantifier": "every token stream that parses, every set of (mutually recursive) rules", "why_tests_cant": "all grammars and all shapes of recursion; the analysis is a traversal with mutable state and error recovery, of which tests see a few final verdicts", "anchors": ["src/liboak/middle/analysis/well_formedness.rs", "src/liboak/middle/mod.rs: typecheck, analyse", "src/liboak/lib.rs: oak"]}
{"id": "C55", "title": "The order of the rules does not matter to the verdict nor to the recognizers", "statement": "Permuting the rules and the functions of a source changes neither whether the analysis accepts it nor what the generated recognizers do: the recognizer of a rule succeeds on the same texts and leaves the same rest unread.", "quantifier": "every source, every permutation of its rules, every rule and text", "why_tests_cant": "all permutations of all grammars; the analysis visits rules in their order and shares its memory between them", "anchors": ["src/liboak/middle/analysis/well_formedness.rs", "src/liboak/middle/analysis/resolve_non_terminal.rs", "src/liboak/back/compiler/grammar.rs"]}
{"id": "C56", "title": "What the generated functions report and return is a function of the source", "statement": "The documented syntax has a semantics with values, actions and errors that mentions the syntax trees only: which terminals fail on the way and where, in which order, which actions are called with which values, which expressions have no value. The recognizer of a rule answers as this semantics says and its expectation is the farthest of these failures with exactly the messages there; for sources where no type of a rule with a value depends on itself the parser returns the value of this semantics, calls the actions in its order, and reports its farthest failures. An expression has no value (is only recognised) exactly when it is built from literals, predicates, ascriptions ^ or (), actions without result and rules like these.", "quantifier": "every accepted source, rule, text and behaviour of external functions", "why_tests_cant": "all sources and all runs: the types and the states they determine come out of several passes over mutable state", "anchors": ["src/liboak/back/compiler", "src/liboak/middle/typing", "runtime/src/parse_state.rs: error, join_errors", "src/liboak/lib.rs: oak"]}
{"id": "C57", "title": "The type of what a parser returns can be read off its rule", "statement": "For every accepted source in which the type of no rule with a value depends on itself and no choice mixes external values with tuples, characters, vectors or options, the type in the signature of parse_n is, up to the names of types that belong to Rust, the one the documentation suggests from the text of rule n alone: nothing for expressions without value, char for any-character and classes, Vec for repetitions, Option for options, the flattened tuple of the operands of a sequence (the operand itself when only one has a value), a span before the values of its operand, the type of its branches for a choice, the type of the called rule for a call, and a Rust type for actions, ascriptions, ranges and external rules; every value the parser returns is of that type.", "quantifier": "every accepted source without recursive types, every rule; every text and run for the values", "why_tests_cant": "all nestings of operators and calls between rules; types are computed by two passes with table rewriting, then compiled", "anchors": ["src/liboak/middle/typing", "src/liboak/back/compiler/rtype.rs: compile_type", "src/liboak/back/context.rs: into_parser_alias", "doc: Typing of expressions"]}
{"id": "C58", "title": "The generated functions are well typed", "statement": "In every accepted module, each recognizer type-checks as a function from a fresh state to a state without data, and (for sources in which the type of no rule with a value depends on itself and no choice mixes external values with values Oak builds) each parser type-checks as a function that returns a state with data of the type its signature declares, exactly when it names no variable out of scope, which can be told from its rule: every variable is used with one type (value, mark, flag or counter), assignments and pushes store values of the declared type of the variable, closures and functions are called with arguments of the types of their parameters, the functions of actions are called with the values of their operand (units left out, tuples spread), the branches of a choice agree, state is only assigned or mutated where it is declared mut, and is only handed over, restored or reused when it has no data.", "quantifier": "every accepted source, every function of the module (parsers: without recursive types)", "why_tests_cant": "all nestings of operators, scopes and closures; rustc checks the code of one grammar at a time, at the user's", "anchors": ["src/liboak/back/compiler", "src/liboak/back/context.rs", "src/liboak/middle/typing", "src/liboak/back/compiler/rtype.rs", "runtime/src/parse_state.rs"]}
{"id": "C59", "title": "The types of the generated functions are kept at run time", "statement": "Call any function of an accepted module on any parse state without data or with data (), in the middle of a text, after failures, with any past expectations, and let the functions of other modules do anything that keeps to their own types (including panics and endless loops): the run panics, does not end, or returns a state whose data, if any, is of the type the signature declares; it never reads a variable that is not there or of another type, and never matches a tuple of the wrong length. The functions of actions are only ever called with values of the types that the operands of the actions suggest, from the source alone; recognizers call none. Recognizers: every accepted source; parsers: for the sources of C58. In general, a module whose functions type-check keeps to its types, and so do modules that call each other, even if they do not end.", "quantifier": "every accepted source, every function, every state and number of steps, every behaviour of external functions that keeps to types", "why_tests_cant": "all states, not only fresh ones, and all external behaviours; tests start from a fresh state", "anchors": ["src/liboak/back/compiler", "src/liboak/back/context.rs", "runtime/src/parse_state.rs", "src/liboak/back/compiler/rtype.rs"]}
{"id": "C60", "title": "The errors of the analysis are true, and there is one exactly when it rejects", "statement": "When a source parses, the analysis emits a list of errors, and it is empty exactly when the source is accepted. A source without rules gets that one error. Otherwise a name is reported as a duplicate rule (or function) exactly when two rules (functions) have it, and the other checks run on the first definitions: a defect is reported exactly when these have one. What each such error says of the expression it points to is so: 'will never succeed': it succeeds on no text; 'always succeeds without consuming': its outcome, when it has one, is always success with nothing consumed; an unreachable branch: the branch it names never fails and has successors, which could be replaced by anything without changing what the choice matches; a loop that does not stop: its operand is built so that it may succeed without consuming, and on each text where it does so the loop has no outcome; a left-recursive cycle: the rules named are distinct, each may call the next before consuming, and the last the first. (Taken as 'on every text' the last two would be false: predicates may contradict each other.)", "quantifier": "every token stream that parses, every set of rules and functions with or without duplicates, every error emitted", "why_tests_cant": "all grammars: the errors come out of a traversal with mutable state that stops, marks and resumes; tests look at some messages", "anchors": ["src/liboak/middle/analysis/well_formedness.rs: register_error, error_*, visit_*", "src/liboak/middle/analysis/duplicate.rs", "src/liboak/middle/mod.rs: at_least_one_rule", "src/liboak/ast.rs: display_path_cycle"]}
{"id": "C61", "title": "Which grammars type inference accepts", "statement": "For a source in which no rule needs its own type, through whichever rules, the macro's verdict is determined by the syntax trees alone: the source is rejected exactly when it is not sound (C54) or not well typed. Well typed means that every rule has a type in which no external type remains, and that its expressions fit where they stand: the branches of a choice whose value is used agree (same type; external branches next to others; invisible and unit branches); below an ascription of a Rust type every valued operand can be of that type; an ascription below another one of () or (^) says the same; operands of actions and ascriptions have a type. When in addition no choice mixes external values with tuples, every other source is expanded: the macro never panics.", "quantifier": "every token stream of the documented syntax whose rules are not recursive in their types, every set of Rust functions", "why_tests_cant": "all nestings of operators, ascriptions, actions and calls; the verdict comes out of two passes that rewrite a shared table of types in the order of the rules", "anchors": ["src/liboak/middle/typing/surface.rs", "src/liboak/middle/typing/depth.rs", "src/liboak/middle/typing/ast.rs: resolve_action_type, syntactic_eq, contains_external", "src/liboak/middle/typing/type_rewriting.rs", "src/liboak/lib.rs: oak"]}
{"id": "C62", "title": "The signature of a parser names exactly the type of its rule", "statement": "For a source in which no rule needs its own type, every rule n of an expanded source has a parser parse_n, and the type of data in its signature is exactly, with the names of Rust types and their order, the one the syntax tree of the rule tells: () for what is invisible or without value; char; the ascribed type; the return type written in the function of the action, within Box< > for >>; Range<S> and <Range<S> as StreamSpan>::Output, S being the stream type of the source with its generic parameters, for ranges and spans; Vec and Option of the type of the operand, unless it is invisible; for a sequence the tuple of the types of its operands with values, those of tuples on the same level, or the only such type; for a choice the type of the first branch not of an external type. No placeholder is left, and the module has no other parser.", "quantifier": "every expanded source whose rules are not recursive in their types, every rule, every set of functions, every stream alias", "why_tests_cant": "all nestings of operators and calls between rules, in all orders of the rules; tests compare the code of some grammars", "anchors": ["src/liboak/middle/typing/surface.rs", "src/liboak/middle/typing/type_rewriting.rs", "src/liboak/middle/typing/ast.rs: resolve_action_type", "src/liboak/ast.rs: range_type, span_type", "src/liboak/back/compiler/rtype.rs: compile_type", "src/liboak/back/context.rs"]}
{"id": "C63", "title": "The warnings of the macro are true", "statement": "When a source is expanded, the attributes reported as ignored are exactly those other than debug_typing and show_typing, and no attribute changes the module. A warning about an infinite recursive type shows a path of distinct rules which is a cycle: the type of each needs the type of its neighbour on the path, and none of these rules has a finite type. There is no such warning when no rule needs its own type, and there is one whenever a type that needs itself is replaced by (^).", "quantifier": "every expanded source, with every list of attributes; every number of rules and every cycle between them", "why_tests_cant": "all graphs of calls between rules; the warning comes out of sets of paths merged while rules are visited depth first, some of which are dropped", "anchors": ["src/liboak/middle/typing/depth.rs: warn_recursive_type", "src/liboak/middle/typing/surface.rs: rec_type", "src/liboak/middle/typing/ast.rs: RecSet, RecPath", "src/liboak/middle/analysis/attribute.rs", "src/liboak/ast.rs: display_path_cycle"]}
{"id": "C64", "title": "Where the advice on useless operators is given", "statement": "For every accepted source there is one list of pieces of advice, determined by its syntax trees, and the warnings on useless chaining are this list, in the order of the source: an application of &, !, ?, + or * gets a warning exactly when its operand begins with an operator with which it makes a line of the documented table, and no expression around it in the same rule (with operators in between or not) got one. An expression begins with an operator when it applies it, or when its first operand, the rule it calls or every one of its branches begins with it, through actions, ascriptions, spans and ranges. The lines !!e, !&e and e+? are only proposed when no part of that beginning is in another rule; the others always. The warning names the operator below and the one to write instead.", "quantifier": "every accepted source, every expression of its rules, every chain of calls", "why_tests_cant": "all nestings and call chains: the analysis is two visitors, one of which stops where the other found something", "anchors": ["src/liboak/middle/analysis/useless_chaining.rs"]}
{"id": "C65", "title": "Which semantic actions are reported as being without value", "statement": "When the macro expands a source, the errors on semantic actions 'with type unit', which it emits besides the module, are a list fixed by the source. No action is reported twice, and only actions on a function of the grammar without return type, or whose return type is (), are: such an action, in a rule, is reported only if the type of the rule, or of the operand of an action, of a typed expression or of a range in it, is made with its own (that is, through sequences, choices, repetitions, options and spans, not through predicates nor other actions and typed expressions); and it is always reported when the type of the rule or of the operand of an action is. If all functions that actions name return values there is no such error. Whatever the input and the functions outside of the module, a generated function calls only actions written in its rules, and never a function that the grammar declares without return type. (That a reported action is never called, as the error says, is false for functions that return ().)", "quantifier": "every expanded source, every rule and nesting of expressions, every set of functions", "why_tests_cant": "all nestings and orders of rules: an action is reported when a first pass or a second one first types it, which memoised types, paths of calls and unit contexts decide; no test of the repository looks at it", "anchors": ["src/liboak/middle/typing/ast.rs: error_unit_action_type, resolve_action_type", "src/liboak/middle/typing/surface.rs: visit_semantic_action", "src/liboak/middle/typing/depth.rs: surface_expr, visit_semantic_action, visit_type_ascription"]}
{"id": "C66", "title": "What a generated function depends on", "statement": "A generated function, for each input, depends only on the rules that its rule leads to by calls and on the functions outside of the grammar that these rules name: run with other functions outside, other generated functions for the other rules, or with these removed from the module, it goes through the same states, with the same result, calls of actions and panics; a recognizer depends only on recognizers. If those rules call nothing outside of the grammar, nothing outside counts. In two accepted sources where the rules that a rule leads to are the same, its recognizer does the same, whatever the other rules: it reads the same part of each text, or fails, with the same farthest failures.", "quantifier": "every expanded source, every rule, every input and state, every set of functions outside of the grammar, every pair of sources", "why_tests_cant": "names, indices of expressions, types and the order of rules are global in the macro: that nothing leaks from a rule to another is a statement on all grammars and all inputs", "anchors": ["src/liboak/back/compiler/rule.rs: compile", "src/liboak/back/compiler/non_terminal.rs: compile_expr", "src/liboak/back/compiler/grammar.rs: compile_rules"]}
