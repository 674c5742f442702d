# Formal model of xprs in Rocq (Coq 8.16.1)

The library in `/repo` parses arithmetic expressions, optionally simplifies
them, and evaluates them on `f64`.  `/verif/rocq/theories` contains a model of
that code, a separate specification, and theorems connecting the two.

## Layout

All files are in `rocq/theories`.

The model (every definition cites the lines of `/repo` it models):

| file | content |
|---|---|
| `F64.v` | `f64` as Flocq's binary64, operators, literals |
| `Syntax.v` | `Operator`, `Function`, `Element`, panics, configuration, oracles |
| `Factorial.v` | `factorial` and its table, with undefined behaviour as an outcome |
| `Builtins.v` | built-in functions, name table, function calls |
| `Context.v` | `Context` |
| `Element.v`, `Order.v` | equality, variables, simplification; ordering |
| `Display.v` | printing of numbers, expressions and errors, help texts |
| `Parser.v` | the byte-level parser and its errors |
| `Xprs.v` | `Xprs`: eval, bind, simplify_for, REPL step |
| `Macro.v` | the `xprs_fn!` macro |
| `Repl.v` | the REPL program: `str::trim`, `str::parse::<f64>` with signs, inf and nan, the loop over standard input |
| `Transcript.v` | the text the REPL prints: the events of `Repl.v` as bytes, miette's report being an arbitrary text |
| `ContextEq.v` | derived `==` on `Symbol`, `Context` and `Parser` |
| `ErrorOrd.v` | the derived orders of errors and operators |
| `HashFeed.v` | the derived `==` and `Hash` of errors and operators: the bytes given to the hasher |
| `Diagnostic.v` | labels and source of an error |
| `DebugText.v` | `Debug` of expressions and `f64`; one-line and multi-line builders |

Instrumented copies of the model, each proved to agree with it:

| file | content |
|---|---|
| `Cost.v` | parser, simplifier, equality and evaluator with a step counter (erasure in `PropertiesCost.v`) |
| `Stateful.v` | evaluation, simplification and parsing with the history of user function calls (agreement in `StatefulFacts.v`) |
| `Threads.v` | threads as conversations with the user functions, and their interleavings (the code is such a conversation: `ThreadsFacts.v`) |
| `DebugErrors.v` | Debug texts of errors, with escapes (facts in `LiteralFacts.v`, `DebugLiteralFacts.v`) |
| `Depth.v`, `DepthPrint.v` | the recursive functions with the greatest number of calls open at once (erasure in `DepthFacts.v`, `PropertiesDepthPrint.v`) |

The specification (independent of the model's functions):

| file | content |
|---|---|
| `SpecChars.v`, `SpecTokens.v`, `SpecUtf8.v` | byte classes, division into tokens, UTF-8 |
| `SpecGrammar.v` | the grammar, with and without trees |
| `SpecScan.v` | a pushdown automaton giving the verdict and the error of a text |
| `SpecTree.v`, `SpecApi.v`, `SpecParse.v` | meaning of a tree, expressions a program can hold, truthful errors |
| `SpecNumber.v` | value of a decimal text, nearest f64 |
| `SpecNames.v` | built-in names, context updates |
| `SpecSubst.v` | replacing and renaming names in token sequences and trees |
| `SpecRewrite.v`, `SpecRegular.v` | the simplification rules one by one, the domain where they preserve values |
| `SpecDumpText.v` | the dump of an expression, word for word |
| `SpecDisplay.v`, `SpecDebug.v` | which trees print to a text that reads back; indentation read off a text |
| `SpecRepl.v` | white space, answers and "exit" as texts |
| `SpecContext.v` | when two contexts mean the same, when two outcomes agree |
| `SpecBounds.v` | interval calculus over f64, with known ranges for other functions (C106) |
| `PropertiesBounds.v` | C106: bounds in, bounds out |
| `SpecTight.v` | the part of the calculus whose bounds are reached (C106) |
| `PropertiesTight.v` | C106: the bounds are reached if every variable occurs once |
| `PropertiesClamp.v` | C106: min(max(t, lo), hi) as a text |
| `PropertiesArguments.v` | C90: texts as arguments in the default build; C106: clamping there |
| `ReplIo.v` | the REPL with lines of bytes, failing reads and writes, and how it ends |
| `SpecReplIo.v` | sessions that break off: which endings are due to writing or reading |
| `PropertiesReplIo.v` | C105 |
| `SpecExact.v` | which real numbers fit, the value of an expression on paper with every step fitting, sums in units of a power of two |
| `PropertiesExact.v` | C104 |
| `Features.v` | features, channels, and the configuration a build gets |
| `SpecFeatures.v` | what dependents ask for |
| `PropertiesFeatures.v` | C103: feature flags and the crates that ask for them |
| `SpecKeys.v` | when two expressions look alike |
| `PropertiesKeys.v` | C102: printed expressions as keys |
| `PropertiesModular.v` | C101: functions made from expressions, in the default build |
| `SpecPolynomial.v` | specification: sums and products, as expressions and as texts |
| `PropertiesPolynomial.v` | C100: sums and products keep their values |
| `SpecInline.v` | specification: writing out calls at the level of tokens, functions defined by a text |
| `PropertiesInline.v` | C99: writing out calls of functions defined by a text |
| `SpecGrouping.v` | specification: regrouped products, value on paper |
| `GroupingFacts.v` | from the sentences of one grammar to those of the other |
| `PropertiesGrouping.v` | C98: pemdas and pejmdas compared |
| `SpecCancel.v` | specification: expressions that settle |
| `PropertiesCancel.v` | C97: joined texts in the default build |
| `DebugContext.v` | Debug texts of symbols, contexts and parsers |
| `SpecDump.v` | what the text of a context says |
| `SpecSpelling.v` | words that read the same, errors at the corresponding words (C94) |
| `SpecAgain.v` | another run of the same program: other seeds, nothing else (C93) |
| `SpecLiteral.v` | string and character literals of the Rust language (C92) |
| `SpecElementOrder.v` | the order of expressions spelt out (C40) |
| `SpecIsolate.v` | text put between brackets (C91) |
| `SpecJoin.v` | joining texts (C90) |
| `SpecToolchain.v` | builds of the same source (C89) |
| `SpecPortable.v` | which functions are the same on every machine (C88) |
| `SpecBrackets.v` | expressions written with the fewest brackets (C87) |
| `SpecBuild.v` | the grammar of the optimising parser (C86) |
| `SpecSimplifier.v` | the table of rules (C85) |
| `SpecAdvice.v` | following the help of an error (C84) |
| `SpecParity.v` | even and odd expressions (C83) |
| `SpecTranscript.v` | how a script reads the REPL's output: lines, words, results |
| `SpecScale.v` | change of unit by powers of two: degrees of expressions (C81) |
| `SpecOrder.v` | total order, dictionary order, sorted |
| `SpecError.v`, `SpecInteger.v` | exact value, magnitude and number of roundings of an expression; integer value |
| `SpecMonotone.v` | the rules for signs and for rising and falling expressions |
| `SpecSpecial.v` | sources of NaN and of infinities, operands, where NaN is handed on |
| `SpecLaws.v`, `SpecIdentities.v` | algebraic laws, side conditions, closure under replacing equals by equals |
| `SpecStateful.v` | the calls of an expression in order, the functions named in a text, values with a state |

Facts used by the proofs: `*Facts.v` and the remaining files.  `DocExamples.v`
replays the examples of the README, the doc comments and `examples/` (tests of
the model, not claims).

`Properties*.v` hold the theorems named in `MANIFEST.json`, each with a
concrete case (`Cxx_witness` or a vm_compute-checked example) beside it.
`TestWorld.v` and `LexExec.v` help those examples, `Conformance.v` replays the
project's own tests in the model, and everything else is proof.

## Trusted base

* Coq's kernel (and `coqchk`).
* Axioms: only the standard library's.  Flocq's `binary_float` operations are
  defined with real-number proofs inside, so everything that mentions `f64`
  depends on `ClassicalDedekindReals.sig_not_dec`,
  `ClassicalDedekindReals.sig_forall_dec`,
  `FunctionalExtensionality.functional_extensionality_dep` and
  `Classical_Prop.classic`.  `ASSUMPTIONS.md` gives what `Print Assumptions`
  lists for each theorem of the manifest; the lists are subsets of these four.
  No axiom is added here.  `coqchk` additionally lists the parameters of the
  standard library's sealed modules (`Rdefinitions.RbaseSymbolsImpl`,
  `Rdefinitions.RinvImpl`, `ssrunder.Under_rel`); these have definitions behind
  their signatures and are not axioms for `Print Assumptions`.
* The reading of the Rust code: the correspondence between a definition and
  the lines cited in its comment is by inspection.

### What is modelled

All of `src/` except what is listed below: `parser.rs`, `xprs.rs`,
`context.rs`, `element/*`, `token/*`, `utils/*`, `bin/repl.rs`, and the
`xprs_fn!` macro.  Feature flags and build modes are fields of a configuration
record (`pejmdas`, `optimize` = compile-time-optimizations, `nightly`,
`overflow_checks`), and theorems quantify over it; `Features.v` says which
configuration the features of `Cargo.toml`, `build.rs` and the checks in `lib.rs`
lead to (Cargo's feature unification is part of the trusted base).  A Rust panic
(`unreachable!()`, slice index, `unwrap`, arithmetic overflow, a user function
panicking) is an explicit outcome, so panic freedom is provable and refutable.

### What is idealised

* `f64`: one NaN; the sign and payload of a NaN are not observable.
* libm (`sin`, `powf`, `tgamma`, ...) and user functions are oracles: fields of
  a record that every theorem quantifies over.  They are pure, except in
  `Stateful.v` (C77), where a user function's answer may depend on all earlier
  calls.  A user function may panic.
* Threads (C80) are sequentially consistent and interleave at the calls of user
  functions; one such call is one step.  That the rest of the code shares no
  mutable state is read off the code: a method takes `&self`, the expression
  itself (`simplify_for`) or exclusive access (the `_in_place` variants), and
  there is no interior mutability.
* `str::parse::<f64>` and float literals are the correctly rounded decimal
  conversion, as std documents.
* `HashMap`/`HashSet`: maps and duplicate-free lists.  Where the code iterates
  over a set, the order is an arbitrary permutation, quantified in the theorem.
* Function pointers are compared by identity.  (rustc may give two functions
  with the same code one address; they then behave alike, and names and
  argument counts are compared as well.)
* `usize` is 64 bits; wrap-around is modelled only at the subtractions on the
  cursor and on the `u8` counter of `BindError`, the only places where it can
  happen.  Stack and heap exhaustion are not modelled; `Depth.v` and
  `DepthPrint.v` (C78) count the calls that are open at once.  The traversals of
  the derived `Clone` and of the drop glue are the ones the compiler generates
  from the type.
* In Repl.v the REPL's standard input is a list of UTF-8 lines and input and
  output do not fail; ReplIo.v (C105) has lines of any bytes and operations that
  fail.  A `print!` that fails prints nothing.
* `Vec`/`Box` are values.  The exception is `simplify_for_in_place`, where
  `ptr::read`/`ptr::write` ownership is modelled.
* `Debug` is modelled for expressions and `f64` (DebugText.v), for errors
  (DebugErrors.v; which characters beyond ASCII are shown unescaped is left
  arbitrary) and for contexts and parsers (DebugContext.v).  Of miette's `Diagnostic` the three methods the crate
  implements are modelled (Display.v, Diagnostic.v).  The derive-generated `Hash` is modelled (HashFeed.v) for errors and
  operators, the only types that derive it; miette's rendering is not modelled.  Input strings are byte strings; all valid UTF-8 is included.

## Plan per property

| id | what is modelled, how it is proved |
|---|---|
| C01 | the parser is written with a recursion budget; theorem: budget linear in the input length is never exhausted (induction on the budget) |
| C02 | panics are outcomes; invariant "no binary factorial / total functions" through the parser, and refutations for `""` and `5!!3` |
| C03 | spans in errors; induction over the parser, cursor stays within the input |
| C04 C05 C06 | `Spec` gives lexical rules and a stratified grammar over tokens; byte parser = token parser (simulation) = grammar (both directions) |
| C07 | corollary of the simulation by the token parser |
| C08 C09 C10 | corollaries of the grammar theorems / parser induction |
| C11 | printer model and structural induction with the completeness theorem |
| C12 | Flocq's rounding theorems about `f64_of_dec` |
| C13 C14 C15 C17 | invariants of parser results by induction |
| C16 | `Parser::parse` with an arbitrary iteration order |
| C18 C19 | lock-step relation between optimising and plain parser, plus soundness of each rewrite |
| C20-C25 | structural induction on expressions, against an independent denotation |
| C26-C29 | bind family with arbitrary iteration order and 8-bit counter |
| C30-C34, C47 | structural induction on simplify |
| C35 | ownership states around ptr::read/ptr::write |
| C36 C37 | case analysis over all f64 with Flocq; table checked by computation against exact integers |
| C38-C40 | structural induction on pairs of expressions |
| C41 | map laws |
| C42 | evaluation of a context function whose oracle is a bound expression |
| C43 | corollary of C20/C25 for the REPL step |
| C44 | exhaustive characterisation of the name table |
| C45 | induction over parser errors |
| C46 C48 C49 | induction on argument lists; Flocq's rounding theorems; remainder against the real quotient |
| C50 | shortest decimal: every shorter text denotes another f64 |
| C51 | one case per error kind, and case analysis of the help |
| C52-C54 | the automaton of `SpecScan.v`; token parser = automaton (induction over its runs), then prefixes and locality |
| C53 C54 in every configuration | the token parser itself, by induction on its budget: what it has read of a prefix does not depend on the rest, and every place where it stops has a filler (`PrefixFacts.v`, `PropertiesPrefix.v`) |
| C04 C05 C10 C11 C52-C54 with optimisation | lock-step of the optimising and the plain token parser (`OptFacts.v`) composed with the plain theorems; for C10 appending a closing parenthesis, for C11 spellings of negative numbers (`PropertiesDefault.v`) |
| C55 C56 | Flocq's correctness theorems for +, -, *, /, sqrt, restated as "nearest f64 to the real result" |
| C57 | the macro's arms as a function on invocations; the calls made by its closures |
| C58 C59 | no rule of `SpecRewrite.v` applies to what the simplifier returns; sizes decrease |
| C60 | invariant: the parser steps over nothing but ASCII |
| C61-C63 | derivations of the grammar transported along a replacement of names by primaries (`SubstFacts.v`), composed with C04/C05 |
| C64 | token-cost invariant of the token parser; nested sentences by induction |
| C65 | exactness of each IEEE operation on small integers; the rewriting rules keep the integer value |
| C66 | erasure of the counter; induction on the tree for the passes; for the parser a potential `T` with `T s + linear + F k <= T k` for `s < k`, instantiated with a cubic and with a linear function |
| C67 | the table of white space is exactly the UTF-8 of White_Space, a prefix and suffix code, so trimming is unique; one round by cases, sessions by induction |
| C68 | lookups decide `==` on duplicate-free maps; the parser run side by side with both contexts, related up to the sign of zeros (or equal, with optimisation) |
| C69 | one rounding errs by at most 2^-53 (|x| + 2^-1022), a sum by 2^-53 |x|; induction over the expression with the factor (1 + 2^-53)^n; a divisor's factor g is at most doubled, 1/(2 - g) <= g^2; a root divides the error by the exact root |
| C70 | Rounding is monotone; infinities are mapped to a real beyond every finite number, so each operation without a NaN result is monotone in the reals; then induction on the rules. |
| C71 | induction over the list of replacements; values of regular expressions are unchanged by each replacement, so permutations agree through the common value. |
| C72 | IEEE case analysis per operation (Flocq), the overflow threshold from rounding at 2^1024 - 2^970, folds for sum/min/max, induction over the tree to find an innermost bad part. |
| C73 | each law from correct rounding of both sides, plus the sign at zero; congruence by induction over the derivation; a table of non-laws by computation |
| C74 | sqrt(x*x): relative error of the square against half the gap around x; Sterbenz for close differences; half gaps for absorption; monotone rounding for the mean; congruence by induction over the derivation |
| C75 | total orders closed under pairs, lists and injective keys; each derived order is one of these |
| C76 | blanks removed, a dump is a bracketed text in which words end at delimiters, so it can be read in one way; number texts are decimal texts of the shortest digits |
| C77 | functions without state: erasure; otherwise each function spends calls out of those it was given, counted by occurrences, with the tokens read as the supply |
| C78 | erasure to the plain functions; induction on trees for evaluation, simplification, comparison, printing, cloning and dropping; for the parser the bytes consumed pay three frames each |
| C79 | each feed can be read back (prefix-free codes: fixed-width numbers, UTF-8 closed by 0xff, lengths before lists); parse errors stay in the range of the machine types by C45, C60, C13 |
| C80 | every operation is a conversation with the user functions (constructed by recursion over the code of Stateful.v, unique up to extensionality); a thread's conversation does not see other threads except through answers; well-founded product order for termination |
| C81 | rounding without lower exponent bound commutes with multiplication by 2^j; sums of floats that are subnormal are exact; mutual induction over the dimension rules |
| C82 | texts in which no word ends in 'ed:' are closed under everything the REPL writes except the result; lines and words of concatenations; a printed number is one number token (C76, C05) |
| C83 | rounding to nearest is symmetric; mutual induction over the rules of signs, values compared up to the sign of zero |
| C84 | runs of the automaton; the edited text reads on from the same state; well-founded order on what remains, the kind of error and the open parentheses |
| C85 | each arm of the match is one rule; first-fit made deterministic by numbering; mutual induction |
| C86 | as C04, with the finishing step as a parameter of the grammar |
| C87 | the lean text is derived in the chain grammar; every derivation has at least as many brackets (induction on derivations, counting what is needed by the place) |
| C88 | two runs of the parser in lock-step, with the invariant that what is read contains only portable functions; simplification keeps this |
| C89 | two runs of the parser in lock-step with different configurations; the nightly rules need a minus sign; values by C18 and C19 |
| C90 | derivations of the two texts put together by one operator production; a chain whose bound exceeds p is a chain above p; acceptance by the flat form of FlatFacts.v |
| C91 | derivations have balanced tokens, so a bracketed balanced part lies within one premise; induction on the derivation |
| C92 | escaping is inverted by the grammar of literals; masking literals reduces dumps with literals to the dumps of C76 |
| C93 | the simplifier and the evaluator never iterate a set; the parser at token level is run in both; set differences of permuted lists are permuted |
| C94 | two runs of the token parser on corresponding tokens (TwoRunsFacts.v); the value of a decimal text is a function of the real number (C12) |
| C95 | C04, C05, C14 and C16 for the empty context |
| C96 | a tree of names and entries is determined by its text (as for C92); entries are a permutation of the map |
| C97 | C97: reading of bracketed joins in the default build through C86's grammar and C85's rules. |
| C98 | C98: translation of pejmdas sentences into pemdas sentences by mutual induction, plus the scan verdict of C52/C63 which does not mention the precedence. |
| C99 | C99: grammar derivations transported through the token rewriting by mutual induction, then C42 and a substitution lemma for the values. |
| C100 | C100: a finite value of such an expression has finite intermediate values only, so it is regular in the sense of C19 and C30. |
| C101 | C101: a finite value is computed from finite arguments only, where the simplified body agrees with the plain one; then C19 and C100 for the calling text, C99 for the text written out. |
| C102 | C102: the text of an expression followed by a blank, comma or closing bracket can be split off in one way only; induction on the tree. An operator in front is never read as a left operand, since the first run of word bytes ends at a bracket in one case and at a blank in the other. |
| C103 | C103: the configuration is a function of the union of the features; C18 and C19 compare the two configurations. |
| C104 | C104: each operation is correctly rounded, so it is exact where the exact result fits; simplification rules keep the value on paper. |
| C105 | C105: relate runs with and without a failure piece by piece (output is a prefix), then follow the exchanges of C67 up to the failure. |
| C106 | corner lemma over the reals for products and quotients, monotone rounding, then induction on the calculus giving a `regular` value; simplification preserves regular values; bounds reached: induction joining the assignments of two parts without common variables |

## Checking the theorems against wrong programs

`seeded/LOG.jsonl` has one line per experiment: a definition of the model is
edited as a bug would, everything is rebuilt, a lemma whose proof breaks is
admitted in the scratch copy, and the rebuild is repeated until nothing breaks.
`broken` lists the lemmas and theorems whose own proofs broke; `theorems_failed`
the theorems of the manifest that are these or rest on them.
