# Formal model of ptal/oak in Rocq (Coq 8.16.1)

Sources: `/repo` (read as text, never run). Model and proofs: `/verif/rocq/theories`, built with
`coq_makefile -f _CoqProject -o Makefile && make -j4` in `/verif/rocq` (about 3 minutes).
Only Coq's standard library is used (lists, strings, ascii, N, Permutation, Relations, FinFun, lia).

Characters are `N` code points, texts `list N`, offsets byte offsets, identifiers Coq strings.
Panics are explicit error values. Recursive Rust functions whose termination is not structural are fuelled,
with a distinguished out-of-fuel value; no theorem takes "out of fuel" as an answer: statements say either
"for all fuel above some N the answer is ..." or "no fuel gives ...".

## Layers

| files | models / proves | repo |
|---|---|---|
| `Base`, `Utf8` | results that may panic; UTF-8 encoding, boundaries, slicing | Rust `str`/`char` (std) |
| `Stream`, `ParseState` | `StrStream`, `make_span`, `FileMapStream`; `ParseState`, `ParseExpectation`, `into_result` | runtime/src/*.rs |
| `RuntimeFacts`, `PropertiesRuntime`, `PropertiesState` | C01-C06, C39, C49 | |
| `Grammar` | arena grammar, expressions, types | src/liboak/ast.rs, visitor.rs, middle/typing/ast.rs |
| `PegSpec` | **specification**: Ford's PEG relation `matches`; relation `ep` with values and event traces | (independent of the code) |
| `Target` | the fragment of Rust the generator emits, as syntax with an evaluator | what src/liboak/back emits |
| `Compile` | the CPS code generator, function by function | src/liboak/back/** |
| `TargetFacts`, `ScopeFacts`, `CompileShape`, `EvalRules`, `CompileCorrect`, `ScopeGen`, `GenTotal` | compiler correctness, static scoping, absence of panics | |
| `WellFormed`, `WfFacts`, `WfSound`, `WfTerm`, `WfFuel`, `WfSyntax` | the well-formedness analysis, its soundness, termination, syntactic reading | middle/analysis/well_formedness.rs |
| `PegFacts`, `Running`, `PegRun`, `Behave`, `Values`, `PropertiesPeg`, `PropertiesWf` | C07-C24, C26 | |
| `CharClass`, `PropertiesGen` | class syntax; C25, C28 | front/parser.rs:367-441 |
| `Names`, `NoShadow`, `PropertiesNames` | name factory, freshness; C27, C42 | back/name_factory.rs |
| `Analysis`, `AnalysisFacts`, `ChainFacts`, `PropertiesAnalysis` | duplicate, resolve_non_terminal, attribute, useless_chaining, middle/mod.rs; C30, C31, C35-C37, C41, C43 | middle/mod.rs, middle/analysis/*.rs |
| `Typing`, `TypeRules`, `SurfaceFacts`, `RefFacts`, `DepthFacts`, `TypingSound`, `TypingFit`, `GenAgree`, `TypingTop`, `TypingVerdict`, `TypingTotal`, `TypingAnswer`, `TypingFuel`, `PropertiesTyping`, `PropertiesRules` | type inference; C29, C32-C34, C44, C48 | middle/typing/*.rs |
| `RType`, `PropertiesSignature`, `PropertiesModule` | the types in signatures; parsers of the module; C45, C50 | back/compiler/rtype.rs, back/context.rs:57-71 |
| `CodeSize`, `PropertiesSize`, `PropertiesMacroSize` (specification `t_nodes`, `t_height`, `t_calm`, `t_width` on the source) | C40 | |
| `Front`, `FrontFacts`, `FrontSpec` (specification), `FrontSound`, `FrontRound`, `FrontGrammar`, `PropertiesFront` | the grammar parser; C38 | front/parser.rs, front/ast.rs |
| `Agree`, `TreeSpec` (specification: Ford's semantics of syntax trees), `TreeFacts`, `Literals`, `Pipeline`, `PropertiesMain` | the whole compiler, tokens to behaviour; C45 | lib.rs: oak |
| `Oak` (the macro as one function), `MiddleFuel`, `OakFacts`, `PropertiesOak` | termination, panics, contents of the module; C45-C47 | lib.rs, back/compiler/grammar.rs, rule.rs |
| `Blind`, `RecOnly`, `Linking`, `PropertiesLink` | several modules: a foreign rule replaced by the functions of another module; C51, C52 | back/compiler/non_terminal.rs, tests/grammars/calc3.rs |
| `LocationExact`, `PropertiesExact` | exact conditions for C04, C18, C37, C39 | |
| `Mutual`, `MutualEnds`, `PropertiesMutual` | modules that call each other, in one program; C51 | back/compiler/non_terminal.rs |
| `RustcCheck` (the checks), `RustcRefs`, `RustcMoves`, `PropertiesRustc` | two checks of rustc on the emitted functions; C53 | back/context.rs:147-196, back/compiler/choice.rs |
| `ScopeExact`, `SourceNames`, `PropertiesScope` | exactly which parsers have unbound names or misuse `&mut` parameters, on typed grammars and on sources; C28, C53 | back/context.rs:147-279, back/compiler/*.rs |
| `WfExact`, `TreeWf` (specification `well_formed`), `PropertiesVerdict` | the verdict of the analysis, exactly; order of rules; C54, C55 | middle/analysis/well_formedness.rs |
| `TreeValues` (specification `tep`), `TreeEp`, `PropertiesSource` | values, actions and errors from the syntax trees; C56 | |
| `TreeKinds` (specification `tkind`, `void`, `bare`, `settled_types`), `KindFacts`, `KindTrees`, `TreeNames` (specification `tidy`), `PropertiesParsers` | which expressions have a value, from the syntax trees; the parsers of C56, C55 | typing |
| `TreeShapes` (specification `tshape`), `PropertiesShapes` | the type of the values of a parser, from the syntax trees; C57 | typing, rtype.rs |
| `CodeTypes` (specification `typed`, `func_typed`), `TypesGen`, `PropertiesCode` | the types of the variables, closures and states in the emitted functions; C58 | back/compiler/*.rs, back/context.rs, runtime/src/parse_state.rs |
| `Errors`, `WfDiag` (specifications `justified`, `closed`), `PropertiesErrors` (specification `true_error`) | the errors of the analysis phase; C60 | middle/mod.rs, middle/analysis/{duplicate,well_formedness}.rs |
| `TypeSpec` (specification `has`, `fine`, `well_typed`), `TypeDen`, `TypeSurface`, `TypeDepth`, `TypeExact`, `PropertiesTypes`, `PropertiesWritten` | the exact verdict of type inference, the types written in the signatures; C61, C62 | middle/typing/{surface,depth,ast,type_rewriting}.rs, lib.rs |
| `Warnings`, `PropertiesWarnings` | the warnings of the macro; C63 | middle/typing/depth.rs, middle/analysis/attribute.rs, ast.rs |
| `UnitActions`, `UnitDepth`, `UnitTop`, `ActionCalls`, `PropertiesUnit` (specification `valueless`, `seen`, `opened`, `returnless`, `makes`) | the errors on actions without value, which do not stop the macro, and the actions that emitted code can call; C65 | middle/typing/ast.rs:53-91, surface.rs, depth.rs, lib.rs, back/compiler/semantic_action.rs |
| `ActionCalls`, `PropertiesLocality` (specification `leads`, `asks`) | what a generated function can call, and that nothing else counts; C66 | back/compiler/*.rs |
| `PropertiesAdvice` (specification `heads`, `elsewhere`, `advised`, `advice`) | which warnings on useless operators are given; C64 | middle/analysis/useless_chaining.rs |
| `TypesSound` (specification `of_shape`), `PropertiesSound` (specification `keeps`) | soundness of that type system for the evaluator `Target.eval`; C59 | as above |
| `SourceChecks`, `PropertiesRepoSource` | sound decision procedures for the conditions of C28, C46, C56, C57 on a source, run on the repository's grammars | tests/grammars |
| `FrontPrint` | the canonical text of a grammar is in the documented syntax (`C38_canonical_read`) | |
| `RustReader`, `RepoGrammars`, `Checks`, `PropertiesRepo` | the grammars of the repository's own tests through the model of the macro (examples, see below) | tests/, data/, grammars/ |

`Properties*.v` hold the property theorems (names start with the property's id), each followed by
`Print Assumptions`, and beside them the `Example`s that show the hypotheses are met by a concrete case.

## Properties: what is modelled and how it is proved

* C01-C03: stream functions over the *byte* string (`flat_map utf8`), refinement to the list of unread
  characters; key lemma: UTF-8 is a prefix code and decode after encode is the identity.
* C04: `line_column` with Rust's `lines()`; proved for texts in which no line ends in CR, refuted in general; `C04_location_exact`:
  right exactly until a CR that ends a line has been read (the lines the code sees are pointwise shorter, so it drifts and never comes back).
* C05: snippet slicing with explicit panic; exact condition proved, refuted in general (multi-byte cut).
* C06: induction over operation histories of ParseState.
* C07-C19: compiler-correctness theorem: by induction on the specification derivation `ep`, running the generated
  code in the target evaluator yields the specified result, position, value, action trace and error trace and
  reaches no panic. Each property is a corollary stated with `matches`/`ep` and the text. C18 refuted (`!"a"` on `a`),
  proved for rules without negative predicates.
* C20-C24: the analysis is modelled with its mutable state; a final accepting pass is a certificate; certificate
  => attribute soundness (induction on derivations) => totality of the PEG semantics (well-founded induction on
  unread length, left-call graph, expression). Termination by a measure on the set of attributes still unknown.
* C25: class syntax; sets against the documented denotation, through to the generated recognizer. C26: the emitted condition.
* C27, C42: numerals are injective; freshness invariants of the generator; witnesses for the refuted parts.
* C28: static scoping of emitted code; recognizers always, parsers under a syntactic condition; refuted in general. Exact
  criterion (`ScopeExact`): a recursion on the expressions that follows the generator's scopes (what follows uses variables
  of this scope, of an enclosing one); `SourceNames` reads it, and that of C53 for `&mut` parameters, off the source.
* C29: invariants of both typing passes imply that the generator's expectations on types hold; refuted in general.
* C30, C31, C37, C41, C43: list inductions over the analyses; C43 composes them into the verdict of `middle`.
* C32-C34: invariants of `surface` and `depth`.
* C35: semantic equivalences in PegSpec lifted to whole grammars; two refuted lines. C36: left-call acyclicity bounds the walk.
* C38: token-level model of the parser; round trip by induction on trees; soundness against the derivation grammar
  `d_*` of FrontSpec; totality by token sizes; arena shape by an invariant on allocation.
* C39: arithmetic (mod 2^32) and `lines()`; the line starts are right exactly when no CRLF is followed by text.
* C18, C37: also exact (`PropertiesExact`): nothing is expected iff no terminal failed; the attribute sequences whose level is right.
* C40: size function on generated code; linear-in-nodes bound for recognizers; exponential family for parsers; all three carried to the source trees through `stored` (`C40_macro_recognizers` for every accepted grammar, `C40_macro_parsers_partial` and `C40_macro_exponential` for those of C56).
* C44: termination for every grammar of the parser: the work is bounded along a path of distinct rules, and the type
  table stays acyclic (a rank on its references), so comparisons stop. A verdict without panic, in every order of the
  rules, when no rule depends for its type on itself through another rule; refuted otherwise by a witness (panic depending
  on the order of two rules).
* C45: composition: FrontSound (tokens to trees) + arena/tree correspondence + C43 + C20-C24 + compiler correctness.
* C48: the table behind the typed grammar satisfies an exact typing rule at every settled slot (invariants of `surface`,
  `reduce_all_rec` and `depth`), read off the final types. C49: induction on histories against folds over the history.
* C50: the rank of C44 bounds the recursion of the type printer; induction on `ep` with the typing rules of C48; the
  signatures are items of the module (`Oak`), so the theorems are also stated of the macro (`PropertiesModule`).
* C51: the oracle for foreign functions is instantiated by running the functions of the imported module; the functions of
  a module never look at the recorded errors (`Blind`, which is C52), recognizers call recognizers only (`RecOnly`);
  a joined syntax-tree grammar gives the specification. Chains of imports by induction on the chain. Modules that import
  each other (`Mutual`): the semantics `across` of paths is a least relation through all the modules; each derivation is
  matched by a run whose fuel bounds both the steps and the nesting of calls between modules; that there is a derivation
  follows from `modules_end` (no rule reaches itself without consuming, through whichever modules; what is repeated
  consumes), by induction on the text and on the acyclic graph of first calls. Two accepted modules that violate it loop
  (`C51_mutual_loop`). A path is taken to name the same module wherever it is written.
* C53: two checks of rustc as functions on the emitted code (`RustcCheck`); a criterion on the expression that follows the
  generator through the flags "something follows", "mutable variables in scope", "what follows assigns one", proved equal
  to the first check by induction on the generator; for the moves, the set of values a continuation may use. The criterion
  for recognizers is restated on the syntax trees. The 14 grammars of the repository pass both checks by computation.
* C54: an accepting final pass is a certificate (C20); conversely, when none of the five defects is present the inductive
  readings of the attributes are a certificate that every pass stays below, so no pass reports. Both on the arena, then
  carried to the trees by `stored`. C55: the specifications of C45 and C54 do not mention the order.
* C56: `tep` is `ep` (PegSpec) on the syntax trees; both agree by induction when "has no value" is read the same on both
  sides, which recognition does not ask for. For parsers the kinds of expressions (no value, unit, external value, Rust value, tuple, other data) are
  computed on the trees and an invariant of the inference passes relates them to the types; with it the conditions of C28
  and C29 (names in scope, choices of one type) become conditions on the source, so that `C56_parsers_partial` mentions the
  arena nowhere.
* C57: `tshape` gives the shape of a type by recursion on the tree (through calls); by induction on its derivation, with the
  typing rules C48 at each node, the table has that shape, and `compile_type` keeps shapes; it exists because types are
  settled (induction on the rank of rules, then on trees).
* C58: `typed` (CodeTypes) is a type system for the emitted code, with environments for variables and closures. Every name of a
  function gets one type, independent of the place in the code; the generator is shown (induction on its recursion) to allow a
  choice of these types for the names it makes, whatever those of the older names; with the scopes (C28) and the uniqueness of the
  closures' names (C27) this gives a derivation. The types of expressions come from C48 and C57; those of the parameters of actions
  (`action_takes`) from `tshape` of the operand. Conversely a typed function has no
  unbound name.
* C59: by induction on the steps of `eval` with environments typed slot by slot (their names and types are kept by assignments, by
  leaving scopes and by writing back `&mut` arguments, which needs the parameters of a closure to be distinct); the functions of
  the module are typed by C58. The log of the calls of actions is typed too.
* C60: the state of the analysis carries the errors emitted. By induction on the traversal, with the invariant of C54 (marks true of
  their rules, the path of rules under traversal linked by calls before consuming, names on the path distinct), each error is
  `justified` by the arena and the verdict is negative iff there is one. `TreeWf`'s correspondence carries this to the syntax
  trees, and induction on the derivations of the syntactic conditions gives their meaning in Ford's semantics.
* C61: `has` gives every expression at most one type and `fine` says, along the tree, where an expression stands (open, hidden
  below `(^)`/`()`, claimed by a Rust type). Each intermediate type of the table is given the set of types it denotes (TypeDen);
  the surface pass is followed with the invariant that every computed entry denotes the type of its expression (TypeSurface), and
  the depth pass with the invariant for the place it visits from, both directions at once: an error iff not `fine` (TypeDepth,
  TypeExact). Sources whose rules need their own types are left out: there the answer depends on the order of the rules.
* C62: the types of C61 carry the text of Rust types; comparison forgets it (`akin`), and a choice takes the text of its first
  branch not of external type, as the code does. The invariant of C61 holds of the table at the end, whose entries `compile_type`
  writes down; the texts of span and range types come from the alias of the stream (`source_facts`).
* C63: `Warnings.v` models `warn_recursive_type` and the warning on attributes; `oak_warnings` (PropertiesWarnings) is the
  run of the macro that keeps them. Proved by an invariant of the bottom-up pass: the rules under visit form a chain of
  needs, so every recursive type in the table carries cycles of needs; the warned paths are among them. Finite types are the
  derivations of `has`, which a cycle of needs makes impossible (`Acc`).
* Settled types (C28, C56, C57): a rule that only recognises (`bare`) may call itself, and rules that only recognise may call
  each other if no other type depends on them; the kind of such rules is the least solution, read off coinductively. C46 asks
  for `settled_alone`: inference may panic on rules that recognise through each other (finding 15).
* C46, C47: `oak` as a function; every pass is monotone in its fuel (`below`), and each terminates by C38, C43, C44 and a bound
  on the recursion of the generator.
* C64: the two visitors of `useless_chaining.rs` (Analysis.v, `inner` and `outer`) against relations on the syntax trees: the
  operator an expression begins with (`heads`), whether another rule takes part in it (`elsewhere`), the table, and the advice
  in order. By induction on fuel along `stored` (the tree of an expression of the arena); the relations are functional.
* C65: `error_unit_action_type` emits an error when the bottom-up visitor first types an action, but does not tell inference:
  the module is made all the same and only the compilation of the user's crate fails. So C46, C54 and C61 speak of the module,
  and C65 of these errors. `*_notes` (UnitActions.v) follow the visitors of Typing.v, which thread the state, and return the
  places reported; what a run reports is read off the table before and after (`traced`: the places of such actions that
  became typed). For the top-down pass (`heard`, UnitDepth.v): tuples refer to typed expressions, predicates' operands and
  operands of actions are still untyped when they are reached (`quiet`, from `spos_hidden` and the disjointness of operands).
  C65_calls (ActionCalls.v): a predicate on emitted code, kept by every step of the generator (including the closures it
  collects) for the expressions of a rule, and implying what the log of any evaluation contains, with no hypothesis on the
  input, on termination or on what foreign functions do; with C48, an action on a function without return type has type unit.

* C66: `calls_ok` (ActionCalls.v) also says which functions emitted code can call; two evaluations of such code with programs and
  functions outside that agree on those are equal, by induction on fuel (`eval_same`). For two sources, the specification `tep`
  only looks at the rules led to (`tep_local`), and C56 ties each recognizer to it.
  For parsers (C66_parsers_partial) the kinds of the expressions led to are the same in both (`tkind_local`, `bare_local`), then C56.

## The repository's own tests

`tools/gen_grammars.py` turns the grammars in `/repo/tests/grammars` into token lists (`RepoGrammars.v`) and
`RustReader.v` is an executable stand-in for `syn`'s parsers of types and items (it satisfies the hypotheses the
theorems put on these parsers). `PropertiesRepo.v` runs the model of the macro on them: the fourteen grammars give
recognizers, all of them satisfy the conditions on parsers, and the generated
functions give the expected verdicts on the inputs of `/repo/data/test`. `PropertiesRepoSource.v` decides the conditions of the
theorems from the source on them: thirteen of the fourteen meet all of them (the last has a rule with a value that calls itself), and `repo_source` states what follows. These are tests of the model, and
non-vacuity of the theorems' hypotheses on real grammars.

## Trusted base

* Coq 8.16.1's kernel (`coqc`), and the reading of the statements in `Properties*.v` together with the
  specifications `PegSpec.v`, `FrontSpec.v` and the small definitions stated beside the theorems.
* **Axioms**: none of our own. `Print Assumptions` answers "Closed under the global context" for every property
  theorem. (The module graph also loads `Coq.ssr.ssrunder`, whose interface `Under_rel` lists seven constants of a
  sealed standard-library module: `Under_rel`, `Under_rel_from_rel`, `Under_relE`, `over_rel`, `over_rel_done`,
  `under_rel_done`, `Over_rel`. They come in through `Lia`; no theorem depends on them.)
* No `Admitted`, `admit`, functor, module type, `Declare Module`, plugin or disabled kernel check.
* The faithfulness of the model to `/repo`: every model definition cites the file and lines it models and says
  where it simplifies. The mutation log `seeded/LOG.jsonl` records edits of the model that the theorems catch.

## What is modelled, and what is not

Modelled function by function: all of `runtime/src`; `src/liboak/ast.rs` (data and visitor order);
`front/parser.rs` from tokens to arena; `middle/mod.rs`, `middle/analysis/{mod,ast,duplicate,resolve_non_terminal,
attribute,useless_chaining,well_formedness}.rs`; `middle/typing/{mod,ast,surface,depth,type_rewriting}.rs`;
`back/**` (context, continuation, name factory, every expression compiler, rule and grammar assembly).

Not modelled, or modelled by an interface:

* spans, the text of diagnostics, `PrintLevel` output itself (`typing_printer.rs`, `Display` instances), and
  `proc_macro` plumbing (`lib.rs`): the errors of the analysis phase are modelled without texts (C60); an error of the parser or
  of type inference is one value; warnings are modelled without texts but for the path of an infinite type (C35, C63);
* syn: tokenisation is the token type `tok` (identifiers, literals, punctuation with its `joint` bit, delimited groups);
  `peek`/`parse` of punctuation follow syn's rule (a prefix of joint characters); `None`-delimited groups, generic
  arguments in paths and `Span::join` failures are not modelled; the parsers of Rust types and items are parameters
  assumed only to read at least one token and leave a suffix;
* rustc: the emitted code is a small typed-free language (`Target.v`) with an evaluator. Of rustc's
  checks, two are modelled (`RustcCheck`: uses of `&mut` parameters, use after move) and names in scope (C28); the
  checker is a model of rustc and part of the trusted base of C53; so is the type system `CodeTypes` for C58, which forgets the
  names of Rust types and does not check `let` against `let mut` for variables other than `state`,
  nor the types written for `&mut` parameters. Not modelled: the other borrow rules, clones of marks; a variable is
  taken as `Copy` at least when a pattern binds it to a character. C45 speaks of the evaluation of the emitted code: that
  rustc compiles it is C28, C53 and C58;
* semantic actions are functions from the arguments to a value: they do not panic, diverge or keep state;
* external rules (`path::to::rule`) are an oracle; the theorems say which assumption they need (total, deterministic,
  consuming, well-positioned);
* the stack: evaluation has no stack bound;
* the crate `partial` (value-or-nothing with errors accumulated) is modelled from its documentation;
* `middle/analysis/unreachable_rule.rs` is dead code (commented out in `analysis/mod.rs`);
* hash maps keyed by identifiers are association lists with the same lookups; iteration order is never observed.

## Findings: claims false of the code (each with a machine-checked witness unless noted)

1. C04 `line_column` is wrong after a CRLF. 2. C05 `Debug` panics when the ten-byte cut falls inside a character.
3. C18 a failing parse may expect nothing. 4. C35 `(e+)*` is not `e+`; patterns are looked up only in the first
operand. 5. C37 printing levels do not accumulate. 6. C29 type inference and code generation disagree on rules of
recursive type and on external branches; C33 any two Rust types are "equal". 7. C28 closures leak outer variables;
C53 closure parameters of type `&mut` are assigned without dereference, or borrowed again
(`r = "a" ("b" / "c") "d" / "e"`), and values are used after a move (`r = v ("+" / "-")` with `v` a list; even
`r = v !("a" / "b") "c"`): rustc rejects the module. 8. C40 exponential code
size. 9. C25 reversed intervals are accepted and match nothing. 10. external rules are assumed to consume.
11. C27 the 187264th variable prefix is `mark`. 12. (not proved) arguments swapped in one parser error message.
13. (not proved) the analysis explores all simple call paths. 14. C42 an action named like a local is captured.
15. C44 type inference panics depending on the order of rules. 16. C38 `e1 .. e2` in the middle of a sequence is read
as two any-character expressions although a diagnostic says that it is rejected. 17. C49 a `ParseState` keeps its value
when an error is reported after a success, and `into_result` then answers a success. 18. C50 a choice with an external
branch is typed from its first branch: `. / f` is typed `char` whatever `f` returns. 19. C44 the type of a rule may depend
on the order of the rules: with `b = "x" c / "y"; c = "z" b; a = c .`, the parser of `a` returns the character when `a`
is first and nothing when it is last. 20. C29 `ra = ("a" ra / "b" .) "c" .` is accepted and the generator panics (the
choice has one value, the recursive rule two). 21. C60 false alarms: `(&"a" !"a")* "b"` is reported as a loop that never
stops though it always stops, and `r = &"a" !"a" r / "b"` as left recursive though every text has an outcome. 22. C61 a span or a
range that directly builds the value of an ascribed Rust type, as in `r = ("a" ..): T`, is always rejected by type inference. 23. C63 a rule that needs
its own type directly, as `r = . r?`, is silently given the type `(^)`: the warning exists for cycles of several rules only; and
the path shown runs against the calls: for `a = . b?; b = . c?; c = . a?` it is `a -> c -> b -> a`. 24. C65 the error on
an action without value is emitted without being recorded, so the macro expands the source all the same; and its text, `will never be
called`, is false for `fn f(c: char) -> ()`: with `r = . > f`, `f` is called on the character.
