#!/usr/bin/env python3
"""Generates ../properties.jsonl (one JSON object per line)."""
import json, os
P = []
def p(title, statement, quantifier, why, anchors):
    P.append(dict(id="C%02d" % (len(P)+1), title=title, statement=statement,
                  quantifier=quantifier, why_tests_cant=why, anchors=anchors))

# ---- runtime: streams -------------------------------------------------------
p("Reading a string stream yields exactly its characters",
  "Calling next() repeatedly on the stream of any string returns the characters of the string in order, then None forever; it never panics (no slice is ever taken inside a character), and after every call the byte offset is the UTF-8 length of the characters already returned.",
  "every string of Unicode scalar values and every number of next() calls",
  "tests read a few ASCII strings; panics of byte slicing only show for particular multi-byte inputs and offsets",
  ["runtime/src/str_stream.rs: StrStream::next", "runtime/src/str_stream.rs: StrStream::current_char"])
p("consume_prefix consumes exactly a literal prefix or nothing",
  "consume_prefix(p) returns true iff the characters of p are a prefix of the unread characters; then exactly those characters are consumed; otherwise it returns false and the stream is unchanged. Although the comparison is on bytes it can never match in the middle of a character nor leave the stream there.",
  "every text, every position between two characters, every literal",
  "byte comparison versus characters only differs on multi-byte texts; an exhaustive set of texts is infinite",
  ["runtime/src/str_stream.rs: consume_prefix", "runtime/src/stream.rs: ConsumePrefix"])
p("Stream order and has_next agree with what was read",
  "Two positions of one stream compare exactly as the numbers of characters read so far, and has_next() is true iff the next call to next() returns a character.",
  "every text and every two positions reachable by next/consume_prefix",
  "needs all pairs of reachable positions of all texts",
  ["runtime/src/str_stream.rs: PartialEq/Ord/HasNext"])
p("Reported line and column",
  "The location of a position is the 1-based line number (one plus the number of line feeds before it) and the 1-based byte column in that line.",
  "every text and every position",
  "existing behaviour depends on terminators (LF, CRLF, missing final newline) and position; tests cover none of the combinations",
  ["runtime/src/str_stream.rs: line_column, location"])
p("Formatting an error never panics",
  "Printing a ParseExpectation / ParseResult (Debug), which takes a snippet of at most 10 bytes at the farthest position, never panics, and the snippet is a prefix of the unread text.",
  "every text and every position",
  "the failing cases need a multi-byte character straddling a particular byte offset",
  ["runtime/src/str_stream.rs: code_snippet", "runtime/src/parse_state.rs: Debug for ParseExpectation"])
p("The error record is the farthest failure with everything expected there",
  "After any sequence of error reports at any positions, the reported position is the maximum of the initial position and all reported positions, and the expectation list is, in order, exactly the messages reported at that position (empty when no error was reported there).",
  "every history of error()/mark/restore/success/failure operations",
  "invariant over unbounded histories",
  ["runtime/src/parse_state.rs: error, success, failure, restore, restore_from_failure"])
p("into_result classifies terminal states exactly",
  "For a state produced by a generated parser: Success iff the rule matched and all input was read, Partial iff it matched and input remains, Failure iff it did not match; the assertion in into_result never fires on such states.",
  "every rule, every input",
  "needs every terminal state reachable from generated code",
  ["runtime/src/parse_state.rs: into_result"])
# ---- generated code ----------------------------------------------------------
p("Generated code never trips a runtime assertion",
  "While running the code generated for any rule, no assertion of ParseState (mark on failed state, restore of successful state, restore with data, extract_data without data) ever fires.",
  "every grammar that the code generator compiles, every rule and every input",
  "depends on all reachable intermediate states of arbitrary nested combinators",
  ["runtime/src/parse_state.rs: mark, restore_from_failure, restore, extract_data", "src/liboak/back/compiler/*.rs"])
p("Generated recognizers implement PEG semantics",
  "For every rule r, recognize_r on an input succeeds having consumed exactly the prefix that Ford's PEG semantics assigns to r's expression, and fails when that semantics says fail.",
  "every resolved grammar, rule and input",
  "compiler correctness: quantifies over all grammars and all inputs",
  ["src/liboak/back/compiler/*.rs", "src/liboak/back/context.rs"])
p("Parser and recognizer of a rule agree",
  "parse_r succeeds on an input iff recognize_r does, and consumes the same prefix, and records the same error information.",
  "every grammar with coherent types, every rule and input",
  "two separately generated functions compared on all grammars and inputs",
  ["src/liboak/back/compiler/rule.rs: compile_recognizer, compile_parser", "src/liboak/back/compiler/mod.rs"])
p("Parsers build the AST value the operators describe",
  "The value returned by parse_r is the one given compositionally by the rule: a char for a class or '.', a Vec in matching order for * and +, Some/None for ?, components in source order for a sequence, the taken branch's value for a choice, the action applied to the components for > f, the callee's value for a rule call.",
  "every grammar with coherent types whose generated names resolve, every rule and input",
  "needs all grammars (variable numbering, scopes, closures) and all inputs",
  ["src/liboak/back/context.rs: value_constructor, next_free_var, open_scope, close_scope", "src/liboak/back/compiler/*.rs"])
p("Semantic actions run only for data that is built, in order, once",
  "Recognizers, syntactic predicates and unit-typed expressions never call a semantic action; in a parser an action runs exactly once each time its expression matches on the executed path, after the actions of its operands, left to right.",
  "every grammar, rule, input",
  "the trace of calls depends on all backtracking histories",
  ["src/liboak/back/compiler/semantic_action.rs", "src/liboak/back/compiler/mod.rs: recognizer_compiler"])
p("Predicates look ahead without consuming",
  "&e and !e never consume input: after either succeeds the rest of the rule continues at the position where the predicate started; &e succeeds iff e matches there and !e iff it does not.",
  "every expression e, context, input",
  "all e and all inputs",
  ["src/liboak/back/compiler/syntactic_predicate.rs"])
p("Repetition is greedy",
  "e* matches e as many times as possible (the remaining input does not match e), e+ is the same but fails when e does not match once; no iteration's partial progress is left consumed.",
  "every e, every input, any number of iterations",
  "unbounded iteration count",
  ["src/liboak/back/compiler/repeat.rs"])
p("Ordered choice commits to the first matching branch",
  "e1 / ... / en behaves as the first branch that matches at the current position; later branches are not tried even if what follows the choice fails.",
  "every choice, every continuation after it, every input",
  "continuations are arbitrary because code is compiled in continuation-passing style and shared through closures",
  ["src/liboak/back/compiler/choice.rs", "src/liboak/back/context.rs: success_as_closure"])
p("Backtracking restores the position",
  "When a branch, an optional or a repetition body fails, the next alternative starts at exactly the position where the failed one started, whatever the failed part had consumed.",
  "every grammar and input", "all failure points inside arbitrary expressions",
  ["src/liboak/back/compiler/choice.rs", "src/liboak/back/compiler/optional.rs", "src/liboak/back/compiler/repeat.rs", "runtime/src/parse_state.rs: restore_from_failure"])
p("A failed or partial parse reports the farthest failure of the whole run",
  "The error information of the result is determined by the sequence of all terminal failures met during the parse (including those inside successful branches, predicates and called rules): its position is the farthest one and its expectations are those reported there.",
  "every grammar, rule, input", "history property of all runs",
  ["runtime/src/parse_state.rs: error", "src/liboak/back/compiler/str_literal.rs", "src/liboak/back/compiler/character_class.rs", "src/liboak/back/compiler/any_single_char.rs"])
p("A failure always says what was expected",
  "Whenever a generated parser fails, the set of expected items it reports is not empty.",
  "every grammar, rule and input that fails", "depends on every failing run",
  ["runtime/src/parse_state.rs: ParseExpectation", "src/liboak/back/compiler/syntactic_predicate.rs"])
p("Spans and ranges delimit exactly the matched text",
  "The range produced by '... e' has as start and end exactly the positions before and after the text matched by e, and '.. e' gives these two byte offsets as 32-bit span bounds followed by e's value.",
  "every e, input, context", "all inputs and nestings, including spans crossing choices compiled to closures",
  ["src/liboak/back/compiler/spanned_expr.rs", "runtime/src/str_stream.rs: stream_span", "runtime/src/lib.rs: make_span"])
# ---- well-formedness ----------------------------------------------------------
p("Accepted grammars terminate",
  "If the well-formedness analysis accepts a grammar, every recognizer and parser generated from it terminates on every input (external rules being total and consuming when they succeed).",
  "every accepted grammar, rule, input", "termination over all inputs is not testable",
  ["src/liboak/middle/analysis/well_formedness.rs"])
p("Left recursion is always rejected",
  "If some rule can reach itself through calls that need not consume input before the call, the analysis rejects the grammar.",
  "every grammar with resolved calls", "all cycles through all operators",
  ["src/liboak/middle/analysis/well_formedness.rs: visit_rule, error_left_recursion"])
p("Non-consuming repetition is always rejected",
  "If the body of some reachable e* or e+ can succeed without consuming input, the analysis rejects the grammar.",
  "every grammar", "semantic property of all inputs of all grammars",
  ["src/liboak/middle/analysis/well_formedness.rs: visit_repeat"])
p("Analysis verdicts are semantically sound",
  "In an accepted grammar no branch of a choice other than the last is one that can never fail, and the attributes computed are sound: an expression judged unable to fail never fails, one judged to always consume never succeeds without consuming, one judged never to consume never consumes.",
  "every accepted grammar, expression, input", "for all inputs",
  ["src/liboak/middle/analysis/well_formedness.rs: WFA"])
p("The analysis itself terminates and its assertions hold",
  "The well-formedness analysis terminates on every grammar (its fixpoint iteration and its traversal of rule cycles are bounded) and neither of its internal assertions can fire.",
  "every resolved grammar", "termination and assertion freedom for all grammars",
  ["src/liboak/middle/analysis/well_formedness.rs: visit_rules, visit_expr"])
# ---- front end / char classes ---------------------------------------------------
p("Character class syntax denotes the documented set",
  "A class string is split left to right into 'a-b' intervals and single characters, '-' being literal only first or last; misplaced '-' is rejected, and the class accepts exactly the union of these; parsing never loops.",
  "every class string", "all strings",
  ["src/liboak/front/parser.rs: parse_set_of_char_range, parse_char_range"])
p("Generated class tests match exactly the class",
  "The condition generated for a class is true of a character iff it lies in one of its intervals, for any non-empty list of intervals; code generation does not panic on any class the front end accepts.",
  "every class accepted by the front end and every character", "all classes, 1.1M characters",
  ["src/liboak/back/compiler/character_class.rs"])
p("Generated local names never collide",
  "All variable, mark, branch-failed, counter and closure identifiers generated for one function are pairwise distinct.",
  "every sequence of name requests", "unbounded sequences; collisions appear only for huge counters",
  ["src/liboak/back/name_factory.rs"])
p("Generated code has no unbound name",
  "Every identifier used in the code generated for a rule, including inside shared continuation closures, is bound at its use.",
  "every grammar with coherent types", "depends on all nestings of choices, scopes and actions",
  ["src/liboak/back/context.rs: success_as_closure, closure_params, closure_args, open_scope"])
p("Code generation does not panic on a grammar accepted by typing",
  "If type inference accepts a grammar then generating its recognizers and parsers never hits an internal panic (all free variables bound / not all bound, unreachable!).",
  "every grammar accepted by the typing phase", "all typed grammars",
  ["src/liboak/back/context.rs: next_free_var, close_scope, next_free_var_skip", "src/liboak/back/compiler/mod.rs: parser_compiler"])
p("Duplicate definitions are always detected",
  "Rule (and Rust function) definitions are accepted iff their names are pairwise distinct, and the kept definitions are the first of each name, in order.",
  "every list of definitions", "all lists",
  ["src/liboak/middle/analysis/duplicate.rs"])
p("Rule calls resolve to local rules first",
  "After resolution every reachable single-identifier call naming a declared rule is a call to that rule, every other call is external, and nothing else in the grammar changes; afterwards every rule lookup succeeds.",
  "every grammar", "all grammars",
  ["src/liboak/middle/analysis/resolve_non_terminal.rs", "src/liboak/ast.rs: find_rule_by_ident"])
p("Tuple types are flattened and contain no unit",
  "The type given to a sequence lists the flattened non-unit component types in order; it is the component itself when there is just one, and unit/invisible when there is none.",
  "every list of component types", "all type lists",
  ["src/liboak/middle/typing/type_rewriting.rs: reduce_tuple, tuple_inlining, tuple_invisible, tuple_unit"])
p("Choice branches must agree on a type",
  "A choice is accepted iff after ignoring recursive unit-paths all branches have one same type, or are all unit-like, or an external type meets one other type; the type given is that common type, independent of duplicate branches.",
  "every list of branch types", "all lists",
  ["src/liboak/middle/typing/type_rewriting.rs: reduce_sum"])
p("Type inference leaves no unresolved type",
  "When type inference accepts a grammar no expression reachable from a rule keeps an uninferred or recursive type, the unreachable! panics of the final reduction are not reached, and no rule's type mentions an unknown external type.",
  "every accepted grammar", "all grammars",
  ["src/liboak/middle/typing/depth.rs", "src/liboak/middle/typing/type_rewriting.rs: reduce_final"])
p("Suggested rewrites preserve the language",
  "Each rewriting proposed by the useless-chaining warning (!!e to &e, &&e to &e, !&e to !e, &!e to !e, e?? to e?, (e+)? to e*, (e*)? to e*, (e+)+ to e+, (e+)* to e+, (e*)* to e*) recognises exactly the same inputs with the same consumption.",
  "every e and input", "equivalence over all inputs",
  ["src/liboak/middle/analysis/useless_chaining.rs: check_chain"])
p("The chaining analysis terminates on well-formed grammars",
  "On a grammar accepted by the well-formedness analysis the useless-chaining analysis terminates (it follows rule calls while looking for an inner operator) and does not panic.",
  "every accepted grammar", "all grammars with recursion",
  ["src/liboak/middle/analysis/useless_chaining.rs: InnerPredicateOrRepeat"])
p("Typing attributes accumulate",
  "Giving several show_typing/debug_typing attributes yields the most verbose requested level, in any order.",
  "every list of attributes", "all attribute lists",
  ["src/liboak/middle/analysis/ast.rs: PrintLevel::merge", "src/liboak/middle/analysis/attribute.rs"])
p("The grammar syntax is parsed with the documented precedence",
  "Printing any expression tree in Oak's concrete syntax with the documented precedences (postfix *,+,? over prefix !,& over :type over sequence over ../... over > over /) and parsing it back yields the same tree; every sub-expression is allocated before its parent, so expression indices are acyclic and in bounds.",
  "every expression tree", "all trees",
  ["src/liboak/front/parser.rs", "src/liboak/front/ast.rs: alloc_expr"])
p("File-map spans are absolute positions",
  "A span taken on a file-map stream is the file's start position plus the byte offsets in it, and the registered line starts are exactly the positions following line feeds.",
  "every source text and start position", "all texts, including CRLF",
  ["runtime/src/file_map_stream.rs: abs_pos, register_lines"])
p("Generated code size is linear",
  "The success continuation is not duplicated by choices: the size of the code generated for a rule grows at most proportionally to the size of the rule times its nesting, not exponentially.",
  "every rule", "asymptotic claim over all grammars",
  ["src/liboak/back/mod.rs", "src/liboak/back/context.rs: do_not_duplicate_success, success_as_closure"])
p("A redefined Stream type is honoured",
  "If the user's Rust items contain a type alias named Stream, the first such alias is the stream type of every generated function and no second alias is emitted; otherwise exactly one default alias is added.",
  "every list of Rust items", "all item lists",
  ["src/liboak/middle/mod.rs: extract_stream_type"])
p("Semantic actions are never captured by generated local names",
  "A call of a user's semantic action in the generated code refers to the user's function: no local variable, mark, flag, counter or closure introduced by the generator in scope at the call has the action's name.",
  "every grammar, rule and action name", "all generated name sequences against all action names",
  ["src/liboak/back/name_factory.rs: fresh_vars, next_var_prefix", "src/liboak/back/compiler/semantic_action.rs"])
p("The analysis phase has one verdict and what it accepts is fit for generation",
  "For every parsed grammar the analysis phase (duplicates, resolution, well-formedness, chaining, attributes, stream type) finishes without panic; it rejects iff there is no rule, two rules or two Rust functions share a name, or the resolved grammar is not well formed; an accepted grammar keeps all its rules, in order, with every call resolved.",
  "every parsed grammar", "composition of the passes over all grammars, including erroneous ones",
  ["src/liboak/middle/mod.rs: typecheck, at_least_one_rule_declared", "src/liboak/middle/analysis/mod.rs: analyse"])
p("Type inference answers on every analysed grammar, whatever the order of its rules",
  "On every grammar accepted by the analyses, type inference terminates with a verdict (accepted with types, or rejected with diagnostics) and does not panic; reordering the rules does not turn acceptance into a panic.",
  "every analysed grammar and order of rules", "all recursion patterns between rules; the panicking pattern needs two mutually recursive rules visited in a given order",
  ["src/liboak/middle/typing/surface.rs: visit_rule, infer_rec_type", "src/liboak/middle/typing/type_rewriting.rs: reduce_rec, reduce"])
p("The generated module recognises the language the grammar text denotes",
  "Whenever the macro accepts a token stream, that stream has a reading in the documented syntax with distinct rule names, and for every rule n and every text, recognize_n returns, its result converts without a panic, it succeeds leaving the rest r exactly when Ford's semantics of the rule's syntax tree gives Some r, and fails exactly when it gives failure; that outcome is unique. parse_n does the same and returns the specified value after the specified action calls (except where the generated parser does not exist or does not compile).",
  "every token stream, every Rust type/item parser that reads at least one token, every text, every behaviour of external functions that return and consume",
  "composes the parser, four analyses, type inference, code generation and run time over all grammars and all texts",
  ["src/liboak/lib.rs: oak", "src/liboak/front/parser.rs", "src/liboak/middle/mod.rs: typecheck", "src/liboak/back/mod.rs: compile"])
p("The macro always ends, with one outcome",
  "For every token stream the expansion of oak! terminates: it rejects with a diagnostic, panics, or produces a module; which of these does not depend on anything but the tokens. A panic can come only from type inference or from the generation of the parse function of a rule of a grammar that was read and analysed; without mutual type recursion, recursive rules with data and external branches of tuples there is none.",
  "every token stream and every parser of Rust types and items that reads at least one token", "all token streams; termination composes five recursive passes",
  ["src/liboak/lib.rs: oak", "src/liboak/middle/mod.rs: typecheck", "src/liboak/back/compiler/grammar.rs"])
p("The module contains one recognizer and one parser per rule, and the user's items",
  "The generated module consists of the user's Rust items in their order, the default Stream alias exactly when the user gives none, then for each rule in source order one recognize_ and one parse_ function, then the user's functions; rule names and function names are distinct.",
  "every accepted token stream", "all grammars", 
  ["src/liboak/back/compiler/grammar.rs: compile_mod_content, compile_rules", "src/liboak/back/compiler/rule.rs: compile", "src/liboak/middle/mod.rs: extract_stream_type"])
p("Every expression has the type its operator says",
  "In a grammar accepted by type inference: literals and syntactic predicates have no data, any-character and classes have a character, an action has the return type of the user's function (boxed for >>), an ascribed expression the ascribed type, a range the range type, an unknown foreign function an unknown type unless an enclosing ascription tells it; repetitions have a list, options an option of their operand, calls the type of the called rule, sequences and spans the values of their operands joined, choices the type of a branch; below an expression without data nothing has data.",
  "every grammar, every environment of Rust functions, every expression", "all nestings of operators and rules, with two passes that rewrite a shared table",
  ["src/liboak/middle/typing/surface.rs", "src/liboak/middle/typing/depth.rs", "src/liboak/middle/typing/ast.rs: resolve_action_type", "src/liboak/middle/typing/type_rewriting.rs"])
p("A parse state is what its history of operations says",
  "After any history of operations on a ParseState: it is failed iff error or failure came after the last success or restoration; it holds a value iff a success gave it and nothing took it away; it stands where the last read or restoration left it; an operation panics exactly on the documented misuses (marking a failed state, restoring over data, restoring a success from failure, extracting from a failed or empty state); into_result answers by the value held and what is left to read; its expectation holds the farthest position of the reported errors and exactly the messages reported there; an erroneous state holds no value.",
  "every finite history of ParseState operations", "all interleavings of operations",
  ["runtime/src/parse_state.rs: success, failure, error, mark, restore, restore_from_failure, into_result, extract_data, discard_data"])
p("A parser's signature names the type of the values it returns",
  "For every grammar accepted by type inference the type the generator writes in the signature of parse_n exists (it is finite) and each value parse_n returns is of that type: () when there is no data, char, Vec, Option and tuples component by component, and a value made by the user's or another library's code where the type is a foreign one.",
  "every accepted grammar, rule, text and behaviour of external parsers", "all types built by nesting, all values along all parses; an infinite type would make the macro overflow its stack",
  ["src/liboak/back/compiler/rtype.rs: compile_type, list_type, optional_type, tuple_type", "src/liboak/back/context.rs: into_parser_function, into_parser_alias"])
p("Rules imported from another Oak grammar behave as they are specified there",
  "In a grammar that calls rules of another module generated by oak! (`path::rule`), recognizing or parsing a rule gives the result of Ford's semantics in which the imported rule means its own expression in the other grammar, for the recognizers of all accepted grammars and, under the conditions on parsers, with the values and action calls; a chain of such imports satisfies the assumption (consume on success, return) that the left-recursion analysis makes of foreign functions as soon as the imported rules consume. The same holds of modules that import each other, provided that no rule reaches itself through them without consuming and that what is repeated consumes; the macro, which sees one grammar at a time, does not check this.",
  "every set of grammars that import each other, every text", "all combinations of separately compiled grammars and all texts",
  ["src/liboak/back/compiler/non_terminal.rs", "tests/grammars/calc3.rs", "README.md: external non-terminals"])
p("What a rule answers does not depend on the errors recorded before",
  "Calling the generated function of a rule on a successful state gives the same success or failure, rest and value, whatever errors the state has recorded before; only the reported expectation changes.",
  "every accepted grammar, rule, text and previous errors", "all histories of failures before the call",
  ["runtime/src/parse_state.rs: error, join_errors", "src/liboak/back/compiler/non_terminal.rs"])
p("The generated functions respect Rust's rules on &mut parameters and moves",
  "Every function of the generated module uses its closure parameters of type &mut T only as such (it does not assign, test or borrow them again) and uses no variable of a type that is not Copy after it may have been moved. Recognizers: the moves are always right, and the &mut parameters are right exactly when no choice followed by something in a sequence lies where the flag of an enclosing choice is still to be assigned. Parsers: when the choices of a sequence are in its last element (&mut), and when no sequence contains a choice (moves).",
  "every accepted token stream, every function of the module", "all nestings of choices, sequences, options and actions; rustc reports it only for the grammar at hand",
  ["src/liboak/back/context.rs: success_as_closure, closure_params, closure_args", "src/liboak/back/compiler/choice.rs", "src/liboak/back/compiler/optional.rs"])
p("The analysis rejects a grammar exactly for its documented reasons",
  "A source that parses is accepted by the analysis if and only if it has a rule, its rule names are distinct, its function names are distinct, and none of these five defects occurs in its rules, where a call of an external rule is taken to consume and to fail sometimes: a rule reaches itself without consuming (left recursion); the operand of * or + may succeed without consuming; a branch of a choice that cannot fail is followed by another branch; the operand of ! cannot fail; an expression neither fails nor consumes anything (predicates only). Otherwise it gets diagnostics and no module. Nothing else is rejected, whatever the order in which rules are visited, and whatever cycles of calls there are.",
  "every token stream that parses, every set of (mutually recursive) rules", "all grammars and all shapes of recursion; the analysis is a traversal with mutable state and error recovery, of which tests see a few final verdicts",
  ["src/liboak/middle/analysis/well_formedness.rs", "src/liboak/middle/mod.rs: typecheck, analyse", "src/liboak/lib.rs: oak"])
p("The order of the rules does not matter to the verdict nor to the recognizers",
  "Permuting the rules and the functions of a source changes neither whether the analysis accepts it nor what the generated recognizers do: the recognizer of a rule succeeds on the same texts and leaves the same rest unread.",
  "every source, every permutation of its rules, every rule and text", "all permutations of all grammars; the analysis visits rules in their order and shares its memory between them",
  ["src/liboak/middle/analysis/well_formedness.rs", "src/liboak/middle/analysis/resolve_non_terminal.rs", "src/liboak/back/compiler/grammar.rs"])
p("What the generated functions report and return is a function of the source",
  "The documented syntax has a semantics with values, actions and errors that mentions the syntax trees only: which terminals fail on the way and where, in which order, which actions are called with which values, which expressions have no value. The recognizer of a rule answers as this semantics says and its expectation is the farthest of these failures with exactly the messages there; for sources where no type of a rule with a value depends on itself the parser returns the value of this semantics, calls the actions in its order, and reports its farthest failures. An expression has no value (is only recognised) exactly when it is built from literals, predicates, ascriptions ^ or (), actions without result and rules like these.",
  "every accepted source, rule, text and behaviour of external functions", "all sources and all runs: the types and the states they determine come out of several passes over mutable state",
  ["src/liboak/back/compiler", "src/liboak/middle/typing", "runtime/src/parse_state.rs: error, join_errors", "src/liboak/lib.rs: oak"])
p("The type of what a parser returns can be read off its rule",
  "For every accepted source in which the type of no rule with a value depends on itself and no choice mixes external values with tuples, characters, vectors or options, the type in the signature of parse_n is, up to the names of types that belong to Rust, the one the documentation suggests from the text of rule n alone: nothing for expressions without value, char for any-character and classes, Vec for repetitions, Option for options, the flattened tuple of the operands of a sequence (the operand itself when only one has a value), a span before the values of its operand, the type of its branches for a choice, the type of the called rule for a call, and a Rust type for actions, ascriptions, ranges and external rules; every value the parser returns is of that type.",
  "every accepted source without recursive types, every rule; every text and run for the values", "all nestings of operators and calls between rules; types are computed by two passes with table rewriting, then compiled",
  ["src/liboak/middle/typing", "src/liboak/back/compiler/rtype.rs: compile_type", "src/liboak/back/context.rs: into_parser_alias", "doc: Typing of expressions"])
p("The generated functions are well typed",
  "In every accepted module, each recognizer type-checks as a function from a fresh state to a state without data, and (for sources in which the type of no rule with a value depends on itself and no choice mixes external values with values Oak builds) each parser type-checks as a function that returns a state with data of the type its signature declares, exactly when it names no variable out of scope, which can be told from its rule: every variable is used with one type (value, mark, flag or counter), assignments and pushes store values of the declared type of the variable, closures and functions are called with arguments of the types of their parameters, the functions of actions are called with the values of their operand (units left out, tuples spread), the branches of a choice agree, state is only assigned or mutated where it is declared mut, and is only handed over, restored or reused when it has no data.",
  "every accepted source, every function of the module (parsers: without recursive types)", "all nestings of operators, scopes and closures; rustc checks the code of one grammar at a time, at the user's",
  ["src/liboak/back/compiler", "src/liboak/back/context.rs", "src/liboak/middle/typing", "src/liboak/back/compiler/rtype.rs", "runtime/src/parse_state.rs"])
p("The types of the generated functions are kept at run time",
  "Call any function of an accepted module on any parse state without data or with data (), in the middle of a text, after failures, with any past expectations, and let the functions of other modules do anything that keeps to their own types (including panics and endless loops): the run panics, does not end, or returns a state whose data, if any, is of the type the signature declares; it never reads a variable that is not there or of another type, and never matches a tuple of the wrong length. The functions of actions are only ever called with values of the types that the operands of the actions suggest, from the source alone; recognizers call none. Recognizers: every accepted source; parsers: for the sources of C58. In general, a module whose functions type-check keeps to its types, and so do modules that call each other, even if they do not end.",
  "every accepted source, every function, every state and number of steps, every behaviour of external functions that keeps to types", "all states, not only fresh ones, and all external behaviours; tests start from a fresh state",
  ["src/liboak/back/compiler", "src/liboak/back/context.rs", "runtime/src/parse_state.rs", "src/liboak/back/compiler/rtype.rs"])
p("The errors of the analysis are true, and there is one exactly when it rejects",
  "When a source parses, the analysis emits a list of errors, and it is empty exactly when the source is accepted. A source without rules gets that one error. Otherwise a name is reported as a duplicate rule (or function) exactly when two rules (functions) have it, and the other checks run on the first definitions: a defect is reported exactly when these have one. What each such error says of the expression it points to is so: 'will never succeed': it succeeds on no text; 'always succeeds without consuming': its outcome, when it has one, is always success with nothing consumed; an unreachable branch: the branch it names never fails and has successors, which could be replaced by anything without changing what the choice matches; a loop that does not stop: its operand is built so that it may succeed without consuming, and on each text where it does so the loop has no outcome; a left-recursive cycle: the rules named are distinct, each may call the next before consuming, and the last the first. (Taken as 'on every text' the last two would be false: predicates may contradict each other.)",
  "every token stream that parses, every set of rules and functions with or without duplicates, every error emitted", "all grammars: the errors come out of a traversal with mutable state that stops, marks and resumes; tests look at some messages",
  ["src/liboak/middle/analysis/well_formedness.rs: register_error, error_*, visit_*", "src/liboak/middle/analysis/duplicate.rs", "src/liboak/middle/mod.rs: at_least_one_rule", "src/liboak/ast.rs: display_path_cycle"])
p("Which grammars type inference accepts",
  "For a source in which no rule needs its own type, through whichever rules, the macro's verdict is determined by the syntax trees alone: the source is rejected exactly when it is not sound (C54) or not well typed. Well typed means that every rule has a type in which no external type remains, and that its expressions fit where they stand: the branches of a choice whose value is used agree (same type; external branches next to others; invisible and unit branches); below an ascription of a Rust type every valued operand can be of that type; an ascription below another one of () or (^) says the same; operands of actions and ascriptions have a type. When in addition no choice mixes external values with tuples, every other source is expanded: the macro never panics.",
  "every token stream of the documented syntax whose rules are not recursive in their types, every set of Rust functions", "all nestings of operators, ascriptions, actions and calls; the verdict comes out of two passes that rewrite a shared table of types in the order of the rules",
  ["src/liboak/middle/typing/surface.rs", "src/liboak/middle/typing/depth.rs", "src/liboak/middle/typing/ast.rs: resolve_action_type, syntactic_eq, contains_external", "src/liboak/middle/typing/type_rewriting.rs", "src/liboak/lib.rs: oak"])
p("The signature of a parser names exactly the type of its rule",
  "For a source in which no rule needs its own type, every rule n of an expanded source has a parser parse_n, and the type of data in its signature is exactly, with the names of Rust types and their order, the one the syntax tree of the rule tells: () for what is invisible or without value; char; the ascribed type; the return type written in the function of the action, within Box< > for >>; Range<S> and <Range<S> as StreamSpan>::Output, S being the stream type of the source with its generic parameters, for ranges and spans; Vec and Option of the type of the operand, unless it is invisible; for a sequence the tuple of the types of its operands with values, those of tuples on the same level, or the only such type; for a choice the type of the first branch not of an external type. No placeholder is left, and the module has no other parser.",
  "every expanded source whose rules are not recursive in their types, every rule, every set of functions, every stream alias", "all nestings of operators and calls between rules, in all orders of the rules; tests compare the code of some grammars",
  ["src/liboak/middle/typing/surface.rs", "src/liboak/middle/typing/type_rewriting.rs", "src/liboak/middle/typing/ast.rs: resolve_action_type", "src/liboak/ast.rs: range_type, span_type", "src/liboak/back/compiler/rtype.rs: compile_type", "src/liboak/back/context.rs"])
p("The warnings of the macro are true",
  "When a source is expanded, the attributes reported as ignored are exactly those other than debug_typing and show_typing, and no attribute changes the module. A warning about an infinite recursive type shows a path of distinct rules which is a cycle: the type of each needs the type of its neighbour on the path, and none of these rules has a finite type. There is no such warning when no rule needs its own type, and there is one whenever a type that needs itself is replaced by (^).",
  "every expanded source, with every list of attributes; every number of rules and every cycle between them", "all graphs of calls between rules; the warning comes out of sets of paths merged while rules are visited depth first, some of which are dropped",
  ["src/liboak/middle/typing/depth.rs: warn_recursive_type", "src/liboak/middle/typing/surface.rs: rec_type", "src/liboak/middle/typing/ast.rs: RecSet, RecPath", "src/liboak/middle/analysis/attribute.rs", "src/liboak/ast.rs: display_path_cycle"])
p("Where the advice on useless operators is given",
  "For every accepted source there is one list of pieces of advice, determined by its syntax trees, and the warnings on useless chaining are this list, in the order of the source: an application of &, !, ?, + or * gets a warning exactly when its operand begins with an operator with which it makes a line of the documented table, and no expression around it in the same rule (with operators in between or not) got one. An expression begins with an operator when it applies it, or when its first operand, the rule it calls or every one of its branches begins with it, through actions, ascriptions, spans and ranges. The lines !!e, !&e and e+? are only proposed when no part of that beginning is in another rule; the others always. The warning names the operator below and the one to write instead.",
  "every accepted source, every expression of its rules, every chain of calls", "all nestings and call chains: the analysis is two visitors, one of which stops where the other found something",
  ["src/liboak/middle/analysis/useless_chaining.rs"])
p("Which semantic actions are reported as being without value",
  "When the macro expands a source, the errors on semantic actions 'with type unit', which it emits besides the module, are a list fixed by the source. No action is reported twice, and only actions on a function of the grammar without return type, or whose return type is (), are: such an action, in a rule, is reported only if the type of the rule, or of the operand of an action, of a typed expression or of a range in it, is made with its own (that is, through sequences, choices, repetitions, options and spans, not through predicates nor other actions and typed expressions); and it is always reported when the type of the rule or of the operand of an action is. If all functions that actions name return values there is no such error. Whatever the input and the functions outside of the module, a generated function calls only actions written in its rules, and never a function that the grammar declares without return type. (That a reported action is never called, as the error says, is false for functions that return ().)",
  "every expanded source, every rule and nesting of expressions, every set of functions", "all nestings and orders of rules: an action is reported when a first pass or a second one first types it, which memoised types, paths of calls and unit contexts decide; no test of the repository looks at it",
  ["src/liboak/middle/typing/ast.rs: error_unit_action_type, resolve_action_type", "src/liboak/middle/typing/surface.rs: visit_semantic_action", "src/liboak/middle/typing/depth.rs: surface_expr, visit_semantic_action, visit_type_ascription"])
p("What a generated function depends on",
 "A generated function, for each input, depends only on the rules that its rule leads to by calls and on the functions outside of the grammar that these rules name: run with other functions outside, other generated functions for the other rules, or with these removed from the module, it goes through the same states, with the same result, calls of actions and panics; a recognizer depends only on recognizers. If those rules call nothing outside of the grammar, nothing outside counts. In two accepted sources where the rules that a rule leads to are the same, its recognizer does the same, whatever the other rules: it reads the same part of each text, or fails, with the same farthest failures.",
 "every expanded source, every rule, every input and state, every set of functions outside of the grammar, every pair of sources",
 "names, indices of expressions, types and the order of rules are global in the macro: that nothing leaks from a rule to another is a statement on all grammars and all inputs",
 ["src/liboak/back/compiler/rule.rs: compile", "src/liboak/back/compiler/non_terminal.rs: compile_expr", "src/liboak/back/compiler/grammar.rs: compile_rules"])

with open(os.path.join(os.path.dirname(__file__), "..", "properties.jsonl"), "w") as f:
    for x in P: f.write(json.dumps(x) + "\n")
print(len(P))
