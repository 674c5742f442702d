{"id": "C01", "title": "Parsing terminates", "statement": "Parser::parse returns (Ok, Err, or a documented panic) for every input: no input string makes it loop, and the nesting of calls it makes is bounded by a linear function of the input length.", "quantifier": "every input string, every context, every feature configuration", "why_tests_cant": "a test suite samples finitely many inputs; an infinite loop can hide in any unlisted one", "anchors": ["src/parser.rs: Parser::parse, ParserImpl::element, atom, parse_arguments, skip_while"]}
{"id": "C02", "title": "When parsing panics", "statement": "Without compile-time-optimizations Parser::parse never panics except, with overflow checks on, for an input consisting only of nothing (the empty string). With compile-time-optimizations it panics only if a called user function panics or the expression contains the '!!'-between-operands form.", "quantifier": "every input string, every context, every feature configuration", "why_tests_cant": "panics depend on rare combinations of bytes (e.g. a doubled '!') that enumerated tests miss", "anchors": ["src/parser.rs: ParserImpl::element, new_unexpected_end_of_expression", "src/element/simplify.rs: BinOp::simplify", "src/element/binop.rs: BinOp::eq"]}
{"id": "C03", "title": "Parse errors point into the source", "statement": "Every ParseError carries the input verbatim as its source, and its span lies inside that source (offset and end at most its length; MissingArgument spans at most one past the end), except the documented empty-input case.", "quantifier": "every rejected input, every context and configuration", "why_tests_cant": "offsets are computed by subtraction from the cursor; only a proof covers every failing position", "anchors": ["src/parser.rs: ParseError constructors, ErrorKind"]}
{"id": "C04", "title": "Accepted texts follow the documented grammar (soundness)", "statement": "If an unoptimised parse accepts a text with some tree, then the text is a sentence of the documented operator grammar (precedence ! > ^ > unary > implicit product > * / % > + -, left associativity, unary minus binding weaker than ^) with exactly that tree, provided no \"!!\" occurs and no number directly follows a number, a constant's name or ')'. Those adjacencies have readings of their own (\"1+2 3\" is (1+2)*3), described exactly: the accepted texts are precisely those derivable with two extra productions, with declared variables. With compile-time optimisation (the default) the result is that tree with parts replaced by their simplification.", "quantifier": "every input string, every context, both precedence features", "why_tests_cant": "precedence/associativity tests check a few operator triples, not arbitrary nesting", "anchors": ["src/parser.rs: ParserImpl::element, get_operator_infos, atom", "src/utils/precedence.rs: get_for_op, IMPLICIT_MULTIPLICATION_PRECEDENCE"]}
{"id": "C05", "title": "Every sentence of the grammar is accepted (completeness)", "statement": "If a text is a sentence of the documented grammar with tree t whose variables are declared (when the context declares any), an unoptimised parse returns exactly t. With compile-time optimisation (the default) and the same proviso as C04, it returns t with parts replaced by their simplification, which has t's value wherever simplifying preserves values (C19).", "quantifier": "every sentence of the grammar, every context, both precedence features", "why_tests_cant": "sentences are unboundedly nested", "anchors": ["src/parser.rs: ParserImpl::element, parse_identifier, parse_arguments"]}
{"id": "C06", "title": "The grammar is unambiguous", "statement": "A text has at most one parse tree in the documented grammar.", "quantifier": "every token sequence and every pair of derivations", "why_tests_cant": "ambiguity is a statement about all pairs of derivations", "anchors": ["src/parser.rs: ParserImpl::element", "src/utils/precedence.rs"]}
{"id": "C07", "title": "Whitespace between tokens is irrelevant", "statement": "Two inputs with the same token sequence (adding or removing ASCII whitespace between tokens) give the same result: the same expression or an error of the same kind.", "quantifier": "every pair of inputs with equal token sequences, every context and configuration", "why_tests_cant": "there are infinitely many spacings; the parser trims at many separate sites", "anchors": ["src/parser.rs: next_trim, consume_if_eq, skip_while"]}
{"id": "C08", "title": "Juxtaposition means multiplication", "statement": "With the pemdas feature, optimised or not, a text that uses implicit multiplication and the text with explicit '*' inserted have the same outcome (same expression or same kind of error), for texts without \"!!\" and without a number directly after a number, constant or ')'.", "quantifier": "every grammatical token sequence with juxtaposed operands", "why_tests_cant": "all shapes of operands on both sides", "anchors": ["src/parser.rs: get_operator_infos", "src/utils/precedence.rs: IMPLICIT_MULTIPLICATION_INFO"]}
{"id": "C09", "title": "pemdas and pejmdas agree without juxtaposition", "statement": "On inputs where no implicit multiplication occurs, the two precedence features produce the same result.", "quantifier": "every input without juxtaposition, every context", "why_tests_cant": "compile-time feature: no single test binary can compare the two on all inputs", "anchors": ["src/utils/precedence.rs", "src/parser.rs: get_operator_infos"]}
{"id": "C10", "title": "Parentheses are transparent", "statement": "If a text parses to an expression then the text wrapped in parentheses (any number of pairs) parses to the same expression (unoptimised), hence evaluates to the same value. With optimisation the tree may fold further (0-5 versus (0-5)): the text in parentheses is accepted, its expression has no more nodes and no new variables, has the same value wherever simplifying preserves values, and is the very same expression when nothing was left to simplify.", "quantifier": "every accepted input, every nesting depth", "why_tests_cant": "unbounded nesting depth", "anchors": ["src/parser.rs: atom, assert_eq_consume"]}
{"id": "C11", "title": "Display round trip", "statement": "Printing an unoptimised expression that contains no factorial, no negative/NaN/infinite number and only resolvable names, and parsing the text again, gives the same expression. With compile-time optimisation (the default), also after giving some variables values: printing an expression in which nothing is left to simplify, with no factorial, finite numbers (negative ones included) and no negative number as the base of a power, gives a text that parses to that same expression.", "quantifier": "every expression tree in that class", "why_tests_cant": "needs all trees and all f64 values (shortest decimal printing)", "anchors": ["src/element/mod.rs: Display", "src/element/binop.rs: Display", "src/element/unop.rs: Display", "src/element/function_call.rs: Display", "src/xprs.rs: Display for Xprs"]}
{"id": "C12", "title": "Numeric literals are correctly rounded", "statement": "A number token denotes the f64 nearest to its decimal value (ties to even, overflow to infinity), underscores ignored; the exponent suffix is recognised exactly when a digit (or sign and digit) follows e/E.", "quantifier": "every numeric literal of any length", "why_tests_cant": "infinitely many literals, rounding ties are rare", "anchors": ["src/parser.rs: parse_number"]}
{"id": "C13", "title": "Variable names come verbatim from the input", "statement": "Every variable in a parsed expression is a non-empty ASCII identifier that occurs as an identifier token of the input, so the unchecked UTF-8 slices are valid.", "quantifier": "every accepted input, every context and configuration", "why_tests_cant": "a memory-safety condition of unsafe code for all inputs", "anchors": ["src/parser.rs: take_while, parse_identifier, parse_number"]}
{"id": "C14", "title": "Name resolution order", "statement": "An identifier resolves to the context's symbol if the context defines it, otherwise to the built-in constant or function of that name, otherwise to a variable; nothing else influences it. What the context holds, and what is declared, under names that do not occur in the text does not change the answer, not even the place of an error; only the list of declared variables shown in an error may differ.", "quantifier": "every identifier and every context", "why_tests_cant": "all names times all contexts", "anchors": ["src/parser.rs: parse_identifier", "src/token/identifier.rs: from_str", "src/context.rs: get"]}
{"id": "C15", "title": "Call arity is enforced", "statement": "In a parsed expression every call of a function with declared arity n has exactly n arguments and every call has at least one argument.", "quantifier": "every accepted input, every context and configuration", "why_tests_cant": "all call nestings", "anchors": ["src/parser.rs: parse_identifier, parse_arguments"]}
{"id": "C16", "title": "Declared variables", "statement": "If the context declares expected variables, parse accepts only expressions whose variables are all declared; otherwise it reports VariableNotDeclared with a variable that really occurs and is not declared.", "quantifier": "every input, every context with an expected set, every hash iteration order", "why_tests_cant": "hash iteration order is nondeterministic", "anchors": ["src/parser.rs: Parser::parse", "src/context.rs: get_expected_vars"]}
{"id": "C17", "title": "vars is exactly the set of variables", "statement": "After parse, Xprs::vars contains exactly the variables occurring in the tree, without duplicates.", "quantifier": "every accepted input, every context and configuration", "why_tests_cant": "all trees", "anchors": ["src/element/mod.rs: find_variables", "src/parser.rs: ParserImpl::parse"]}
{"id": "C18", "title": "Optimisation does not change what is accepted (as far as true)", "statement": "If the optimising parser accepts a text then the plain parser accepts it too; the converse fails exactly because folded constants block a following digit. Where no number directly follows ')', both accept or both report the identical error.", "quantifier": "every input, every context", "why_tests_cant": "comparison of two feature configurations over all inputs", "anchors": ["src/parser.rs: element, get_operator_infos", "src/element/simplify.rs: Simplify::simplify"]}
{"id": "C19", "title": "Compile-time optimisation preserves values (as far as true)", "statement": "For inputs accepted by both in which no number directly follows ')' (there the two may even group differently, see C18), the optimised tree evaluates to a value IEEE-equal to the plain tree's whenever the operands of + - * / % are finite, no divisor, modulus or exponent is zero, moduli of 1 are used on integers only, zeros are raised only to exponents for which libm gives zero and libm's first power is the base, and functions called with a zero do not tell +0 from -0.", "quantifier": "every input, context, valuation in the stated regular domain", "why_tests_cant": "floating point values and rewrite interactions over all trees", "anchors": ["src/element/simplify.rs: Simplify::simplify", "src/parser.rs: element"]}
{"id": "C20", "title": "eval succeeds iff its variables are given", "statement": "Xprs::eval returns Ok exactly when every variable occurring in the tree has a value; otherwise the error names an occurring variable without value: the leftmost one.", "quantifier": "every expression, every valuation", "why_tests_cant": "all trees and valuations", "anchors": ["src/xprs.rs: eval, eval_element, EvalError"]}
{"id": "C21", "title": "eval computes the mathematical meaning", "statement": "eval of an expression returns the IEEE result given by the structural semantics: operators applied to operand values in order, functions called with argument values in order.", "quantifier": "every expression and valuation", "why_tests_cant": "all trees", "anchors": ["src/xprs.rs: eval_element", "src/element/function_call.rs: call"]}
{"id": "C22", "title": "eval depends only on the variables of the expression", "statement": "Two valuations agreeing on the expression's variables give the same result, extra entries are ignored.", "quantifier": "every expression and pair of valuations", "why_tests_cant": "all valuations", "anchors": ["src/xprs.rs: eval_element"]}
{"id": "C23", "title": "eval_unchecked agrees with eval", "statement": "Whenever eval returns Ok(v), eval_unchecked returns v; it panics exactly when eval returns an error or panics.", "quantifier": "every expression and valuation", "why_tests_cant": "all trees and valuations", "anchors": ["src/xprs.rs: eval_unchecked, eval_element_unchecked"]}
{"id": "C24", "title": "eval_no_vars", "statement": "eval_no_vars succeeds exactly for closed expressions and equals eval under any valuation for them.", "quantifier": "every expression", "why_tests_cant": "all trees", "anchors": ["src/xprs.rs: eval_no_vars, eval_no_vars_unchecked"]}
{"id": "C25", "title": "Evaluating a parsed expression never panics", "statement": "eval on a parsed expression does not panic, provided user functions do not and the text has no '!!' between operands.", "quantifier": "every parsed expression and valuation", "why_tests_cant": "unreachable!() arms and slice indexing must be unreachable for all trees", "anchors": ["src/xprs.rs: eval_element", "src/token/function.rs: xprs_fn!"]}
{"id": "C26", "title": "bind succeeds iff all variables are listed", "statement": "bind, bind2..bind9, bind_n and bind_n_runtime return Ok exactly when every variable in vars is among the given names (fewer than 256 missing).", "quantifier": "every expression, every list of names", "why_tests_cant": "all lists of names, hash iteration order", "anchors": ["src/xprs.rs: bind, bind2, bind9, bind_n, bind_n_runtime, BindError::from_diff"]}
{"id": "C27", "title": "Bound functions compute eval", "statement": "A successfully bound function applied to values returns what eval returns with the names mapped to the values (the last value wins for a repeated name), without panicking.", "quantifier": "every expression, names, values", "why_tests_cant": "all trees, names and values", "anchors": ["src/xprs.rs: bind, bind2, bind_n"]}
{"id": "C28", "title": "bind_n_runtime with any number of values", "statement": "The function returned by bind_n_runtime never panics because of the number of values: it evaluates with the pairs that exist, returning an EvalError naming an unassigned variable if values run out.", "quantifier": "every expression, names, and value slice of any length", "why_tests_cant": "all slice lengths", "anchors": ["src/xprs.rs: bind_n_runtime"]}
{"id": "C29", "title": "BindError lists exactly the missing variables", "statement": "The error is OneVariable with the only missing name, or MultipleVariables with the missing names joined by ', ', each exactly once, when fewer than 256 are missing.", "quantifier": "every expression and list of names, every hash order", "why_tests_cant": "nondeterministic order, counter overflow at 256", "anchors": ["src/xprs.rs: BindError::from_diff"]}
{"id": "C30", "title": "simplify_for preserves values (as far as true)", "statement": "Evaluating the simplified expression equals evaluating the original with the variable assigned, on the regular domain of C19.", "quantifier": "every expression, variable, value, valuation in the regular domain", "why_tests_cant": "all trees and f64 values", "anchors": ["src/xprs.rs: simplify_for", "src/element/simplify.rs: simplify_for"]}
{"id": "C31", "title": "simplify_for eliminates the variable", "statement": "After simplify_for((x, v)) neither the tree nor vars mention x; the tree's variables are a subset of vars and vars loses only x.", "quantifier": "every expression, variable and value", "why_tests_cant": "all trees", "anchors": ["src/xprs.rs: simplify_for_in_place", "src/element/simplify.rs: simplify_for"]}
{"id": "C32", "title": "simplify_for_multiple is iteration", "statement": "simplify_for_multiple(&[v1..vn]) equals simplify_for applied successively, in place or not.", "quantifier": "every expression and list of assignments", "why_tests_cant": "all lists", "anchors": ["src/xprs.rs: simplify_for_multiple, simplify_for_multiple_in_place"]}
{"id": "C33", "title": "Substituting every variable closes the expression", "statement": "After simplify_for_multiple with all of its variables, eval_no_vars returns Ok.", "quantifier": "every expression and assignment list covering vars", "why_tests_cant": "all trees", "anchors": ["src/xprs.rs: simplify_for_multiple, eval_no_vars"]}
{"id": "C34", "title": "Closed expressions fold to a number (as far as true)", "statement": "simplify on a closed tree yields a number unless a 0 - a rewrite leaves an unfolded negation; without subtraction it always does.", "quantifier": "every closed expression", "why_tests_cant": "all trees", "anchors": ["src/element/simplify.rs: BinOp::simplify, UnOp::simplify, FunctionCall::simplify"]}
{"id": "C35", "title": "In-place simplification is exception safe only if it cannot panic", "statement": "simplify_for_in_place leaves the expression owning its tree exactly once whenever simplification does not panic; on a panic it is left holding a moved-out tree.", "quantifier": "every expression, variable, value, panic point", "why_tests_cant": "crash points inside user functions", "anchors": ["src/xprs.rs: simplify_for_in_place, simplify_for_multiple_in_place"]}
{"id": "C36", "title": "factorial is safe for every f64", "statement": "factorial never indexes outside its table and its unchecked float-to-int conversion is always in range; negative numbers and fractions give NaN, integers above 170 and infinity give infinity.", "quantifier": "all 2^64 f64 values", "why_tests_cant": "cannot enumerate f64", "anchors": ["src/utils/factorial.rs: factorial"]}
{"id": "C37", "title": "factorial table accuracy", "statement": "For every integer 0..170 the table entry is the f64 recurrence T(n)=round(T(n-1)*n) and is within 7 units of relative error 2^-53 of n!.", "quantifier": "every n in the table and its exact factorial", "why_tests_cant": "exact rational comparison is outside unit tests; the entries are not all correctly rounded", "anchors": ["src/utils/factorial.rs: FACTORIALS"]}
{"id": "C38", "title": "Equality of expressions", "statement": "== on expressions without NaN and without '!!' is reflexive, symmetric and transitive, and ignores operand order of + and *.", "quantifier": "every pair and triple of expressions", "why_tests_cant": "all trees", "anchors": ["src/element/binop.rs: PartialEq", "src/element/mod.rs: PartialEq"]}
{"id": "C39", "title": "Equal expressions evaluate equally", "statement": "If two expressions compare equal then they evaluate to IEEE-equal values or both NaN wherever zero signs cannot be observed; in particular when they share all literals bit for bit, the results are identical.", "quantifier": "every pair of equal expressions and every valuation", "why_tests_cant": "all pairs of trees", "anchors": ["src/element/binop.rs: PartialEq", "src/xprs.rs: eval_element"]}
{"id": "C40", "title": "partial_cmp versus ==", "statement": "partial_cmp on expressions is not consistent with ==: operands swapped under + compare equal with == but not with partial_cmp; where it returns Equal on trees without functions the trees are ==. What decides is exactly this: numbers come before binary operations, these before unary operations, calls and variables; two numbers are compared by value, operations by operator (in the order + - * / ^ % !) and then by operands from left to right, calls by name and then by arguments (fewer first), variables by name. There is always an answer unless a NaN is involved.", "quantifier": "every pair of expressions", "why_tests_cant": "all pairs", "anchors": ["src/element/mod.rs: PartialOrd", "src/element/binop.rs: PartialOrd", "src/token/function.rs: PartialOrd"]}
{"id": "C41", "title": "Context updates", "statement": "set/with operations on a Context follow last-write-wins per name, leave other names alone, and with_symbols replaces all symbols but not the expected variables.", "quantifier": "every context, every sequence of updates", "why_tests_cant": "all histories of updates", "anchors": ["src/context.rs: set_var, with_var, set_fn, with_fn, with_symbols, set_expected_vars"]}
{"id": "C42", "title": "Expressions as functions", "statement": "Registering a bound expression as a context function and calling it in another expression evaluates to substituting the argument values into it.", "quantifier": "every inner expression, outer argument list and valuation", "why_tests_cant": "all compositions", "anchors": ["src/xprs.rs: bind_n", "src/token/function.rs: new_dyn", "src/context.rs: with_fn"]}
{"id": "C43", "title": "The REPL never reaches unreachable!()", "statement": "For every line typed that contains no \"!!\" (there parsing itself panics, see C02) and all numeric answers, the REPL either prints the parse error or reaches eval with all variables given, and eval returns Ok with the value of the expression: the unreachable!() is never reached. The empty line, which only the end of the input can give, needs a build without overflow checks.", "quantifier": "every input line and every answer", "why_tests_cant": "all lines", "anchors": ["src/bin/repl.rs: main, ask_for_variables"]}
{"id": "C44", "title": "Built-in names", "statement": "The default context defines exactly the documented function names with their arity, the constants pi and e, and treats every other identifier as a variable.", "quantifier": "every identifier", "why_tests_cant": "all strings", "anchors": ["src/token/identifier.rs: from_str", "src/utils/built_in_functions.rs"]}
{"id": "C45", "title": "Error kinds are truthful", "statement": "TooFewArguments(e,g) has g<e, TooManyArguments(e,g) has g>e (so the help text's subtraction never underflows), UnexpectedToken/IllegalCharacter carry the byte at the reported offset, ExpectedToken(t) is reported where the next byte is not t. The span of a wrong number of arguments begins with the function's name and is long enough for the parentheses, commas and arguments counted.", "quantifier": "every rejected input, every context and configuration", "why_tests_cant": "all failing inputs", "anchors": ["src/parser.rs: ErrorKind, Diagnostic::help"]}
{"id": "C46", "title": "Variadic built-ins", "statement": "sum/mean/min/max over any non-empty argument list: sum is the left fold of +, mean is sum divided by count, min/max ignore NaN and bound every non-NaN argument and are one of the arguments.", "quantifier": "every argument list of any length, all f64", "why_tests_cant": "unbounded lists, NaN and infinities", "anchors": ["src/utils/built_in_functions.rs: SUM, MEAN, MIN, MAX"]}
{"id": "C47", "title": "Simplification never grows an expression", "statement": "simplify and simplify_for never increase the number of nodes; variables of the result are among those of the input.", "quantifier": "every expression", "why_tests_cant": "all trees", "anchors": ["src/element/simplify.rs: Simplify"]}
{"id": "C48", "title": "Rounding built-ins are exact", "statement": "floor, ceil, trunc, round (half away from zero), abs and fract of a finite argument return exactly the mathematical value.", "quantifier": "every finite f64", "why_tests_cant": "2^64 arguments; ties, huge values and negative zeros are easy to miss", "anchors": ["src/utils/built_in_functions.rs: FLOOR, CEIL, ROUND, TRUNC, ABS, FRACT"]}
{"id": "C49", "title": "The remainder operator is exact", "statement": "x % y in an expression, for finite x and non-zero finite y, is exactly x - trunc(x/y)*y, smaller in magnitude than y, with the sign of x; NaN for an infinite x, a zero y or a NaN; x itself for an infinite y.", "quantifier": "all pairs of f64", "why_tests_cant": "2^128 pairs", "anchors": ["src/xprs.rs: eval_element, Operator::Modulo"]}
{"id": "C50", "title": "Numbers print as the shortest text that reads back", "statement": "The text of a positive finite number in a printed expression is plain positional decimal (no exponent, no trailing \".0\") that parses back to the same number; no decimal with fewer significant digits does, and of those with as many places it is the nearest. Different numbers have different texts; a negative number is its absolute value's text after a minus sign.", "quantifier": "every f64", "why_tests_cant": "2^64 values", "anchors": ["src/element/mod.rs: Display for Element", "src/xprs.rs: Display for Xprs"]}
{"id": "C51", "title": "Error texts and help", "statement": "For every error that parse returns, asking for the message and for the help text never panics in any build; the counts in the argument-number messages are exact and the help names exactly the difference with the right plural; the help for an undeclared variable lists the declared variables, each once. The illegal-character message shows the character itself only for ASCII: for other characters it shows the first byte as if it were a character. The texts of evaluation and bind errors name a missing variable, respectively all missing variables, each once, in the singular or the plural. Every message and every help text is the one for its kind of error, shows a character as that character, and is valid UTF-8.", "quantifier": "every text, context, configuration", "why_tests_cant": "all texts; usize subtraction in help could underflow", "anchors": ["src/parser.rs: ParseError, ErrorKind, Diagnostic::help", "src/xprs.rs: EvalError, BindError"]}
{"id": "C52", "title": "The exact error", "statement": "Without compile-time optimisation, which error a text gets, its offset and its length are given by a simple left-to-right reading of its tokens that only remembers the parentheses still open: the text is accepted, or rejected at the first token that cannot be read, and the kind and span follow from that token, the open parentheses and the number of arguments read so far. With optimisation the same holds for texts without \"!!\" in which no number directly follows ')'.", "quantifier": "every context and every non-empty text", "why_tests_cant": "infinitely many malformed texts; tests only look at a few error kinds and at no span in general", "anchors": ["src/parser.rs: Parser::parse, element, atom, parse_identifier, parse_arguments, argument, ParseError, ErrorKind"]}
{"id": "C53", "title": "Everything before the reported place is fine", "statement": "The text up to the place an error points to can be continued to a text that parses, unless a call in it already has too many arguments. This holds with and without optimisation; with it, for texts without two adjacent '!' (whose evaluation at parse time may panic) and for context functions that return.", "quantifier": "every text that is rejected, without expected variables", "why_tests_cant": "infinitely many malformed texts, and for each the existence of a continuation", "anchors": ["src/parser.rs: ParseError, Parser::parse"]}
{"id": "C54", "title": "Nothing after the reported place could have helped", "statement": "An error that points to a token does not depend on what follows it: every text with the same tokens up to and including that one is rejected at that token with the same kind of error. This holds in every configuration.", "quantifier": "every text that is rejected and every other continuation", "why_tests_cant": "for each malformed text infinitely many continuations", "anchors": ["src/parser.rs: ParseError, Parser::parse"]}
{"id": "C55", "title": "Operators are correctly rounded", "statement": "+, -, * and / in an expression return the f64 nearest to the exact real result of their operand values (ties to even, overflow to infinity, sign kept on underflow); NaN, infinities and the signs of zeros follow IEEE-754.", "quantifier": "every expression and every pair of operand values", "why_tests_cant": "2^128 operand pairs; rounding, overflow and zero signs cannot be sampled", "anchors": ["src/element/binop.rs: BinOp", "src/xprs.rs: Xprs::eval"]}
{"id": "C56", "title": "sqrt and recip are correctly rounded", "statement": "sqrt and recip return the f64 nearest to the real square root and reciprocal; sqrt of a negative number is NaN, recip of a zero is an infinity of its sign.", "quantifier": "every f64", "why_tests_cant": "2^64 arguments", "anchors": ["src/utils/built_in_functions.rs: SQRT, RECIP"]}
{"id": "C57", "title": "Functions made with xprs_fn!", "statement": "Every documented form of xprs_fn! gives a function with that name, number of arguments and pointer kind, and no other invocation compiles (the unnamed form xprs_fn!(f, n) does not, although the macro has an arm for it). In a parsed expression the wrapped function gets exactly the argument values, in order, and the wrapping closure never indexes out of bounds. A function of no arguments can be made but never called.", "quantifier": "every invocation, context and expression", "why_tests_cant": "all invocation shapes times all expressions", "anchors": ["src/token/function.rs: xprs_fn!, Function", "src/parser.rs: parse_identifier"]}
{"id": "C58", "title": "Simplified expressions have nothing left to simplify", "statement": "On a stable compiler, an expression parsed with compile-time optimisations, and any expression returned by simplify_for, contains no operation, sign, factorial or call that a simplification rule would still change: no operation on two numbers, no call on numbers only, no x+0, 1*x, x-x and so on, anywhere in the tree. The one exception is the sign of a number left by 0 - n. A zero exponent is not simplified. On nightly a pass can leave work (x-(-(-x)) becomes x+(-x)).", "quantifier": "every input, context, expression and substituted value", "why_tests_cant": "all trees and all positions in them", "anchors": ["src/element/simplify.rs: simplify, simplify_for", "src/parser.rs: element", "src/xprs.rs: simplify_for"]}
{"id": "C59", "title": "Repeated simplification settles", "statement": "Simplifying an expression for a variable that does not occur in it leaves it unchanged exactly when no rule applies anywhere, and otherwise makes it strictly smaller; repeating it settles after fewer passes than the expression has nodes. On a stable compiler a second pass changes nothing unless the first one left the sign of a number.", "quantifier": "every expression a program can hold, every unused name", "why_tests_cant": "all trees; termination of a rewriting process", "anchors": ["src/element/simplify.rs: simplify, simplify_for", "src/xprs.rs: simplify_for"]}
{"id": "C60", "title": "Texts outside ASCII", "statement": "For every UTF-8 input: the texts the parser slices out without a UTF-8 check lie inside the input and are ASCII; both ends of an error's span lie between characters (except the end of a missing argument's span, which can split a character); and the character an error names is the byte at its place read as Latin-1, so it is the character there if that is ASCII and otherwise a different one (except U+00C3).", "quantifier": "every valid UTF-8 input, context and configuration", "why_tests_cant": "all Unicode texts and positions; soundness of an unsafe block", "anchors": ["src/parser.rs: from_utf8_unchecked, parse_number, parse_identifier, ParseError", "src/utils/hidden_macros.rs: trust_me"]}
{"id": "C61", "title": "A name can be replaced by a parenthesised expression", "statement": "Replacing every occurrence of a variable's name in an accepted text by another accepted text in parentheses gives an accepted text, and evaluating it gives what the original gives with the variable set to the value of the inserted text; replacing only some occurrences gives the same value wherever the variable has that value. With optimisation on (no declared variables) it is accepted too and has that value wherever simplification preserves values. Exception: a number written directly after the name then multiplies differently.", "quantifier": "every accepted text, variable name and inserted accepted text, every context and all variable values", "why_tests_cant": "all texts, positions and inserted texts; a precedence or adjacency bug shows only for particular neighbours", "anchors": ["src/parser.rs: ParserImpl::element, atom, parse_identifier", "src/xprs.rs: Xprs::eval"]}
{"id": "C62", "title": "A context constant is a fixed variable", "statement": "Defining a free name as a constant in the context leaves the accepted texts the same and gives, for each of them, what the text without the constant gives with that name set to the constant's value; and vice versa. With optimisation on (no declared variables) likewise up to simplification. Exception: a number written directly after the name.", "quantifier": "every text, context, name and value, all other variable values", "why_tests_cant": "all texts and values; constants take another path through the parser than variables", "anchors": ["src/context.rs: Context::set_var, Context::get", "src/parser.rs: ParserImpl::parse_identifier"]}
{"id": "C63", "title": "Variable names do not matter", "statement": "Renaming the variables of an accepted text (to names that are variables too, keeping lower case initials where a name directly follows an operand) gives an accepted text whose expression is the renamed expression and evaluates to the same results with correspondingly named values, a missing variable being reported under its new name. A capital initial is accepted alone but not directly after an operand.", "quantifier": "every text, context and renaming, all variable values", "why_tests_cant": "all texts and renamings", "anchors": ["src/parser.rs: ParserImpl::parse_identifier, element", "src/xprs.rs: Xprs::eval"]}
{"id": "C64", "title": "Expressions are no larger than their text", "statement": "An expression obtained from a text has fewer than two nodes per token, hence per byte, of the text, in every configuration; so parsing never blows up a text. Nesting depth has no limit of its own: texts of 5n+1 bytes give expressions of height n+1 for every n (there is no depth check before the recursion of the parser).", "quantifier": "every text, context and configuration; every depth", "why_tests_cant": "a bound over all texts; unbounded depth", "anchors": ["src/parser.rs: parse, element, atom", "src/element/mod.rs: Element"]}
{"id": "C65", "title": "Whole-number arithmetic is exact up to 2^53", "statement": "An expression over whole numbers (numbers, variables, + - * / when the division is exact, %, signs, factorial, and the built-ins abs, floor, ceil, round, trunc, fract, sqrt of squares, factorial, min, max, sum, mean) all of whose intermediate results have magnitude at most 2^53 evaluates to exactly the mathematical integer, in every configuration: with or without simplification during parsing, and after any partial evaluation. The bound cannot be dropped: 9007199254740992+1 evaluates to 9007199254740992.", "quantifier": "every text, context, configuration, world and integer assignment of the variables", "why_tests_cant": "all integers and all expressions over them", "anchors": ["src/element/simplify.rs: BinOp::simplify", "src/xprs.rs: Xprs::eval, Xprs::simplify_for", "src/utils/factorial.rs", "src/utils/built_in_functions.rs"]}
{"id": "C66", "title": "The work is polynomial: no text or expression makes the library blow up", "statement": "Counting one step per call of the parser's functions, per byte looked at or copied, per node visited and per call of == on expressions: comparing two expressions takes at most the product of their numbers of nodes, although sums and products are compared in both orders; one simplification pass takes at most n^2 steps and a partial evaluation at most 2 n^3 for n nodes; evaluation visits no node twice; parsing takes at most 60 (k+1)^3 + 5 (k+1) steps for a text of k bytes in every configuration, plus the number of declared variables, and a linear number without the optimisation passes. With the passes it is not linear: k minus signs in front of a variable take at least k^2/2 steps.", "quantifier": "every text, expression, context, configuration and world", "why_tests_cant": "a worst-case bound over all inputs; timing tests only sample", "anchors": ["src/parser.rs: ParserImpl::element, atom, parse_identifier, parse_arguments, skip_while", "src/element/simplify.rs: simplify, simplify_for", "src/element/binop.rs: PartialEq for BinOp", "src/xprs.rs: eval_element"]}
{"id": "C67", "title": "REPL sessions", "statement": "Standard input is a sequence of lines. Every expression typed, followed by one number per variable (each variable is asked for exactly once), is answered with its value under these answers; a text that is not an expression with parse's error; each answer depends on its own lines only. 'exit' with any white space around it ends the session with Bye. An answer is accepted exactly if it is a number as Rust reads it (decimal, inf, infinity, nan in any case, with an optional sign), white space around it allowed; the first that is not, or the end of the input while answers are due, is a panic. Nothing else can happen for lines without '!!'. Every error reported for a line typed points to a place inside that line. At the end of the input without 'exit' a debug build panics; a release build does not notice it and goes on prompting and reporting the same error, which points outside the (empty) text, for as long as that report can be printed.", "quantifier": "every sequence of lines, every configuration and iteration order", "why_tests_cant": "all sessions, and non-termination at the end of the input", "anchors": ["src/bin/repl.rs: main, ask_for_variables"]}
{"id": "C68", "title": "Equal parsers are interchangeable (as far as true)", "statement": "Two contexts (or parsers) compare == exactly if every name means the same in both (unknown, constants with IEEE-equal numbers, or the same function) and the same variables are expected; the order in which they were built does not matter. == is symmetric and transitive, and reflexive unless a constant is NaN. Without compile-time optimisation equal parsers give, for every text, the same error or equal expressions with the same variables (trees differ at most in the sign of zero constants). In every build they are interchangeable if no constant is zero. Refuted: with constants 0.0 and -0.0 equal parsers can give different values, and with optimisation one can panic where the other accepts.", "quantifier": "all pairs of contexts, all texts, all hash iteration orders", "why_tests_cant": "pairs of contexts of unbounded size, built in any order, against all texts", "anchors": ["src/context.rs: Symbol, Context (derived PartialEq)", "src/parser.rs: Parser (derived PartialEq), parse", "src/token/function.rs: PartialEq for FnPointer"]}
{"id": "C69", "title": "Rounding errors stay in proportion", "statement": "For an expression over +, -, *, /, signs, abs, sum, mean, recip, min, max and sqrt, the value of eval differs from the exact real value by at most ((1 + 2^-53)^n - 1) times the expression's magnitude, hence by at most n 2^-52 times the magnitude. The magnitude is the value with all numbers replaced by their absolute values and every - by +, plus 2^-1022 per product, quotient or root; n is the number of rounded operations. A computed divisor must not cancel: if its magnitude is at most c times its absolute value, its own count enters n multiplied by 2c. The argument of sqrt must be larger than its own error, and its magnitude is divided by the root. Nothing overflows if every magnitude on the way is at most 2^1022. Relative to the value itself there is no such bound: (1e16 + 1) - 1e16 gives 0. For sqrt(mean(x*x, y*y)) / (x + y) with x and y from 1 to 1e16 the relative error is at most 10 * 2^-52.", "quantifier": "every expression of that form with at most 2^52 operations, every assignment of finite values", "why_tests_cant": "error analysis over all real-valued inputs and expression sizes", "anchors": ["src/xprs.rs: eval", "src/utils/built_in_functions.rs: SUM, ABS"]}
{"id": "C70", "title": "Expressions that rise on paper rise when evaluated", "statement": "If the school rules say that an expression rises (or falls) with its variables (sums of rising terms, products and quotients of terms of known sign, signs, factorials, sqrt, floor, ceil, round, trunc, abs, recip, min, max, sum, mean), then raising those variables never lowers (raises) the value that eval returns, whatever the roundings, overflows and signed zeros, provided no part evaluates to NaN. So the values at the ends of an interval enclose every value inside it. Without the NaN condition this is false: min(sqrt(x), 5) is 5 at x = -1 and 2 at x = 4.", "quantifier": "all expressions the rules cover, all sign assumptions, all directions, all pairs of variable values", "why_tests_cant": "The claim is about every pair of 64-bit inputs of every expression; rounding could break monotonicity at a single pair, which sampling would miss.", "anchors": ["src/xprs.rs: eval", "src/utils/factorial.rs: factorial", "src/utils/built_in_functions.rs: SQRT, FLOOR, CEIL, ROUND, TRUNC, ABS, RECIP, MIN, MAX, SUM, MEAN"]}
{"id": "C71", "title": "The order in which variables are replaced", "statement": "Replacing several variables by numbers with simplify_for_multiple gives, where the domain is regular (operands of + - * / % finite, no zero divisors, moduli or exponents; zeros raised only to exponents for which libm gives zero; functions called with a zero do not tell +0 from -0; moduli of 1 only for integers), an expression with the same value whatever the order in which the map is iterated, whether it is done in one call or in several stages, and with or without the optional simplification pass; the variables left are always the unreplaced ones. Outside a regular domain the order is observable (x/y with x=0, y=0 becomes 0 or inf), and even inside it the resulting expressions need not be equal by ==.", "quantifier": "all expressions, maps of variables to numbers, permutations of those maps, splits into stages, worlds and build configurations", "why_tests_cant": "The order is that of a randomly seeded hash map; a test sees one order per run.", "anchors": ["src/xprs.rs: simplify_for_multiple", "src/element/simplify.rs: simplify_for"]}
{"id": "C72", "title": "Where NaN and infinities come from", "statement": "If eval returns NaN, some part of the expression is a source of NaN: a NaN number or variable, opposite infinities added, equal ones subtracted, 0 times infinity, 0/0, inf/inf, % with an infinite dividend or zero divisor, a factorial of a negative or fractional number, sqrt of a negative number, fract of an infinity, clashing infinities in sum or mean, or ^, libm or user code returning NaN. If eval returns an infinity, some part is a source of it: an infinite number or variable, a result of size at least 2^1024 - 2^970, a nonzero number divided by zero, a factorial above 170, min or max of nothing but NaN, or ^, libm or user code. These lists are exact: a part is a source if and only if its value is NaN (infinite) and the value of no operand is. An expression without sources evaluates to a finite number. A NaN spreads to the result through + - * / %, signs, !, sum, mean and the one-argument functions, but not always through min and max.", "quantifier": "all expressions, variable values, worlds (libm and user functions) and argument lists", "why_tests_cant": "Ranges over all trees and all 2^64 values of each operand, including the exact overflow threshold.", "anchors": ["src/xprs.rs: eval", "src/xprs.rs: eval_element", "src/utils/built_in_functions.rs: SUM", "src/utils/factorial.rs: factorial"]}
{"id": "C73", "title": "Rearrangements that do not change the result", "statement": "Rewriting an expression, anywhere and any number of times, by the following laws changes no result of eval in any bit: a+b = b+a, ab = ba, a-b = a+(-b), -(-a) = a, +a = a, (-a)b = -(ab), (-a)/b = a/(-b) = -(a/b), (-a)%b = -(a%b), a%(-b) = a%b, (a%b)%b = a%b, a*1 = a/1 = a-0 = a, a+a = 2a, a+a+a = 3a, a/2^k = a*2^-k, abs(-a) = abs(abs(a)) = abs(a), abs of a product, quotient, remainder or difference, rounding twice, floor(-a) = -ceil(a), trunc(-a) = -trunc(a), round(-a) = -round(a), fract(a) = a-trunc(a), recip(a) = 1/a, factorial(a) = a!, logn(a,b) = ln(a)/ln(b), sum(l,a) = sum(l)+a, mean = sum/count, min(l,a) = min(min(l),a), max = -min of the negatives. With a+0 = a, -(a+b) = -a-b, -(a-b) = b-a, abs(sqrt(a)) = sqrt(a), fract(-a) = -fract(a), fract(a) = a%1, sum(a) = a, sum(a,b) = a+b, sum of negatives and any order of the arguments of min and max, results change at most in the sign of a zero, provided the rewritten part is not in a divisor, an operand of ^ or an argument where that sign can be seen. The variables stay the same. Thirty other laws of the real numbers (associativity, distributivity, x+y-y = x, ...) fail on concrete values.", "quantifier": "all expressions related by any sequence of rewritings, all values of the variables including NaN, infinities and signed zeros, all libm and user functions", "why_tests_cant": "bit-exact equality over all f64 values and all expression shapes", "anchors": ["src/xprs.rs: eval", "src/utils/built_in_functions.rs: ABS, SUM, MEAN, MIN, MAX, FRACT, RECIP, LOGN", "src/xprs.rs: eval_element"]}
{"id": "C74", "title": "Identities that hold for values in range", "statement": "At given values of the variables, rewriting an expression anywhere by the laws of C73 and by the following ones changes no bit of the result, where a has the finite value x and b the finite value y: a-a = 0; a/a = 1 if x is not 0; a*0 = 0 if x > 0; sqrt(a*a) = abs(a) if 2^-511 <= |x| <= 2^511; (a*2^k)/2^k = a unless the product overflows or falls below 2^-1022; (a-b)+b = a if |x-y| is at most |x| and |y| and x is not 0, and then a-b is not rounded at all; trunc(a)+fract(a) = a if x is not 0; a+b = a if |y| < 2^-54 |x|; a%b = a if |x| < |y|; abs(a) = a or -a by the sign of x; floor, ceil, round, trunc leave a whole x alone and fract makes it 0; ceil(a) = floor(a)+1 for x not whole and not between -1 and 0; min(a,b) = a and max(a,b) = b if x < y; min(a,a) = max(a,a) = a; min(a,b)+max(a,b) = a+b and min(a,b) = min(b,a) if x and y differ; sum(a) = mean(a) = a if x is not 0, and mean(a,a) = a if also |x| <= 2^1022. The mean of two numbers of size at most 2^1022 lies between them. Outside these ranges the identities fail on concrete values.", "quantifier": "all expressions related by any sequence of rewritings at any values meeting the side conditions, all libm and user functions", "why_tests_cant": "bit-exact equality over ranges of f64 values; the range of sqrt(x*x) = |x| contains 2^63 doubles per variable", "anchors": ["src/xprs.rs: eval", "src/utils/built_in_functions.rs: SQRT, ABS, TRUNC, FRACT, SUM, MEAN, MIN, MAX, FLOOR, CEIL, ROUND"]}
{"id": "C75", "title": "Errors can be sorted", "statement": "The orders on ErrorKind, BindError, EvalError and Operator are total orders that agree with ==: exactly one of a<b, a==b, a>b holds, and < is transitive, so a list of errors has exactly one sorted arrangement and sets of errors keep each error once. Errors are ordered by kind first, in the order in which ErrorKind documents them, then by their data, texts in dictionary order of their bytes. Symbols are only partially ordered: variables come before functions, NaN values compare with nothing, equal symbols compare as equal, < is transitive; but functions are ordered by name alone, so different functions of the same name compare as equal although == tells them apart.", "quantifier": "all errors, all texts and lists of names in them, all operators and symbols, all lists of errors", "why_tests_cant": "laws over all pairs and triples of errors and all lists", "anchors": ["src/parser.rs: ErrorKind derive", "src/xprs.rs: EvalError, BindError derive", "src/token/operator.rs: Operator derive", "src/context.rs: Symbol derive", "src/token/function.rs: PartialOrd for Function"]}
{"id": "C76", "title": "Debug dumps tell what they show", "statement": "The Debug text of every f64 reads back with str::parse::<f64>() as that f64 (NaN, infinities and signed zeros included), so different numbers have different texts; it has the shortest digits, always a point or an exponent, and is scientific exactly below 1e-4 and from 1e16 on. The dump of an expression ({:?} and the {:#?} that the REPL prints) determines the expression: two parsed, or parsed and partially evaluated, expressions of the same context with the same dump have the same tree and the same variables, whatever configuration and hash order were in use. This needs that functions go by their own names: a context function that takes the name a built-in goes by has the same dump as the built-in reached under its alias. {:#?} is indented by four blanks for every open bracket and its brackets match; {:?} is a single line. The words of the one-line dump are fixed exactly (constructor, field and operator names), and the long form has the same words in the same order: it differs in blanks, line ends and the commas after last items.", "quantifier": "all f64, all inputs, configurations, contexts, values given to variables, hash orders", "why_tests_cant": "injectivity and layout of texts of all trees of any depth", "anchors": ["src/element/mod.rs: Element derive(Debug)", "src/element/binop.rs: BinOp (derive Debug)", "src/element/unop.rs: UnOp (derive Debug)", "src/element/function_call.rs: FunctionCall (derive Debug)", "src/token/function.rs: Debug for FnPointer, Function", "src/token/operator.rs: Operator derive(Debug)", "src/xprs.rs: Xprs derive(Debug)", "src/bin/repl.rs: main"]}
{"id": "C77", "title": "User functions with a state are called in order and at most once", "statement": "User functions may be closures with a state, so that an answer depends on all earlier calls. eval (and eval_unchecked, and every bound function) evaluates left operands before right ones and arguments from left to right before the call: a successful evaluation makes exactly the calls of the expression in that order, each once; a missing variable stops it after the calls to its left have been made and before any other; a panicking function stops it at a prefix of that order. Without compile-time optimisation parsing calls nothing. With it, parsing (also of a text it rejects), any substitutions and one following evaluation together make each call written in the text at most once. The order at parse time is not the textual one (\"f(1) - g(2)\" calls g first), and optimisation may drop calls (\"f(x) - f(x)\" is 0 without calling f), so with such functions it may change the value. For functions without state the results are those of all other properties.", "quantifier": "all texts, contexts, configurations, behaviours of the user functions depending on the whole history of calls, values of variables, substitutions", "why_tests_cant": "ranges over all stateful closures and all histories", "anchors": ["src/xprs.rs: eval_element, eval_element_unchecked, simplify_for_multiple", "src/element/simplify.rs: FunctionCall::simplify", "src/parser.rs: element, parse_identifier", "src/token/function.rs: FnPointer::Dyn"]}
{"id": "C78", "title": "How deeply calls nest: the stack needed is linear in the text and reached", "statement": "Parsing, simplifying, substituting, comparing and evaluating are recursive, so each needs a stack. Evaluation nests no more calls than the expression is high, and exactly that many when it returns a value; a simplification pass nests exactly as many, a substitution at most one more, a comparison no more than the lower operand is high; neither simplification nor substitution makes an expression higher. Parsing a text of n bytes nests at most 3n+3 calls whatever happens (success, error or panic, optimisation on or off), and what it returns is at most n high, so a limit on the length of texts limits the stack of every operation. The bound cannot be improved to less than linear: a text that begins with n signs or opening parentheses nests at least 2n+3 calls even if it is then rejected, and sin(sin(...x...)) of 5n+1 bytes is accepted and evaluating it nests n+1 calls; so does x+x+...+x of 2n+1 bytes without any parentheses, because sums group to the left. Printing, cloning and dropping an expression visit every node and nest exactly as many calls as it is high; ordering two expressions nests no more than the lower is high, and exactly that when they are equal. So an expression parsed from n bytes is printed, cloned, dropped and ordered with at most n calls open, fewer than parsing it took, and x+x+...+x of 2n+1 bytes needs n+1 for each of the first three.", "quantifier": "all texts, contexts, configurations, expressions, values of variables", "why_tests_cant": "a stack overflow aborts the process, and no test of short texts shows how the stack grows with the text", "anchors": ["src/parser.rs: ParserImpl::parse, element, atom, parse_identifier, parse_arguments, argument", "src/xprs.rs: eval_element, eval_element_unchecked", "src/element/simplify.rs", "src/element/mod.rs: find_variables", "src/element/binop.rs: PartialEq", "src/element/mod.rs: Display for Element, derived Clone and PartialOrd, drop glue"]}
{"id": "C79", "title": "Errors are sound keys of hash maps", "statement": "Two errors compare equal exactly if they agree in kind, span and source (kinds: in variant and payload), and equality goes with the order. For every hasher, equal errors, kinds and operators feed it the same data, and different ones feed it different data, neither a prefix of the other; so a hash map or set of errors keeps two of them apart unless the hasher itself collides. This covers every error that parsing a text with a context can report.", "quantifier": "all pairs of errors, whatever is hashed after them, all texts, contexts and configurations", "why_tests_cant": "a field left out of a hash or of an equality shows only on two values that differ in that field and nothing else", "anchors": ["src/parser.rs: derives of ParseError and ErrorKind", "src/xprs.rs: derives of BindError and EvalError", "src/token/operator.rs: derive of Operator"]}
{"id": "C80", "title": "Threads sharing parsers, expressions and functions", "statement": "Several threads may parse, evaluate and substitute (in clones) at the same time with shared parsers, contexts, expressions and functions. If the functions keep no state, every thread gets, in every interleaving, exactly what it gets when nothing else runs. If they keep state, a thread that shares no state with the others still gets the results, and makes the calls, of running alone; a thread that does share state behaves as alone with functions that answer as they did, in particular a successful evaluation still makes the calls written in the expression, each once, in order. No thread waits for another, no interleaving goes on for ever, and every interleaving can be carried on until all threads have finished. An evaluation as a whole is not atomic.", "quantifier": "all numbers of threads, all programs of the threads (each step may depend on earlier results), all interleavings at the calls of user functions, all functions and histories", "why_tests_cant": "the schedules of even two threads cannot be enumerated, and a race shows only under some of them", "anchors": ["src/tests/thread_safety.rs", "src/token/function.rs: FnPointer (Arc<dyn Fn + Send + Sync>)", "src/parser.rs: Parser::parse takes &self", "src/xprs.rs: Xprs::eval, eval_unchecked take &self; simplify_for takes self"]}
{"id": "C81", "title": "Changing units by a power of two", "statement": "If the values of the variables are converted to another unit that differs by a factor 2^k, each variable according to its dimension (lengths by 2^k, areas by 2^2k, ...), then the value of an expression that is consistent as to dimensions is converted by exactly the power of 2^k that belongs to the dimension of the result, including the sign of a zero; a result without dimension stays the same bit for bit. The rules cover + - * / %, signs, abs, sqrt, recip, sum, mean, min and max, and any operator or function applied to pure numbers, provided no intermediate result overflows or underflows before or after the conversion. For other factors, or with underflow, it is false in general.", "quantifier": "all expressions, all assignments of dimensions to variables, all values and all k for which the intermediate results stay in range", "why_tests_cant": "holds for a continuum of values and factors at once, and fails for factors that look equally harmless", "anchors": ["src/xprs.rs: XprsImpl::eval_element", "src/utils/built_in_functions.rs: sqrt, recip, abs, sum, mean, min, max", "src/xprs.rs: Xprs::eval"]}
{"id": "C82", "title": "The REPL's output can be read by a script, and its results typed in again", "statement": "The text the REPL prints in a session (banner, prompts, interpreted expression, dump, variables, questions, results) is determined byte by byte. A script that cuts the output into lines and words and prints the last word of every line whose last word but one is 'Evaluated:' gets exactly one text for each expression typed, in order, and each text reads as the value of its expression under the answers given - whatever the expressions and names are (a variable may be called Evaluated), and provided no report of an error has a line that looks like a result. The result stands behind the questions on the same line, so looking for 'Evaluated:' at the beginning of lines misses it. Every result printed, NaN and the infinities included, is accepted as an answer and stands for itself; a finite one typed in as an expression is answered with itself without a question; inf, -inf and NaN typed in as expressions are read as variables of these names.", "quantifier": "every session (any expressions, answers, texts that are no expressions, ended by exit), every configuration and iteration order, every f64", "why_tests_cant": "all sessions and all numbers; the output mixes texts chosen by the user with the program's", "anchors": ["src/bin/repl.rs: main, ask_for_variables", "src/element/mod.rs: Display, Debug", "src/xprs.rs: Display, Debug"]}
{"id": "C83", "title": "Even and odd expressions", "statement": "If the signs of some variables are changed, the result of an expression that is odd in them by the rules of signs changes its sign, and the result of one that is even in them stays the same, exactly and for all values including NaN and infinities; only the sign of a zero result may differ. The rules cover + - * / %, signs, !, abs, round, trunc, fract, recip, sum, mean, powers and any function that is itself even or odd, and any function of even arguments. A divisor, the argument of recip and the argument of a function that can tell the zeros apart must not be zero: otherwise it is false, and it is false for floor, ceil, min and max.", "quantifier": "all expressions, all choices of variables that change sign, all values, all functions", "why_tests_cant": "a statement about the values at two places for all f64 at once, with exceptions that only occur at zeros", "anchors": ["src/xprs.rs: XprsImpl::eval_element", "src/utils/built_in_functions.rs: abs, round, trunc, fract, recip, sum, mean", "src/xprs.rs: Xprs::eval"]}
{"id": "C84", "title": "Following the help of an error", "statement": "Doing what the help of a parse error suggests (adding the expected parenthesis, removing the unexpected token or character and leaving a blank, adding the missing argument before a ')', adding as many arguments as are missing, removing as many of the last arguments as are too many) removes that error: afterwards the text parses, but for undeclared variables, or what is wrong with it lies behind the edit. One cannot go in circles: no sequence of such rounds is endless. Every error gives such advice except an unexpected end, a malformed number, an undeclared variable, a call of a function that takes no arguments, and a missing argument reported at another token than ')', where the advice does not help; so without compile-time optimisation the advice leads from every text to one that parses or to one of these errors. The label of the report marks the place the edit is made at. Removing a character without leaving a blank can cause an error earlier in the text.", "quantifier": "all texts, all contexts, all sequences of rounds; all configurations without compile-time optimisation, and with it all texts without '!!' or a number directly after ')'", "why_tests_cant": "all texts and edits; endless sequences", "anchors": ["src/parser.rs: ParseError, Diagnostic::help, Diagnostic::labels, Diagnostic::source_code, ErrorKind", "src/parser.rs: Parser::parse"]}
{"id": "C85", "title": "Which rule simplifies", "statement": "What simplify_for returns is determined by a fixed table of rules in a fixed order: the value is put in for the variable, operands are simplified before the operator above them, and at each operator the first rule of the table that fits its two operands is used (for instance 0/0 is NaN although the rules 0/a = 0, a/0 = inf and a/a = 1 fit too); where none fits, the operator stays. The table gives exactly one result for every expression obtained from a text without '!!' and functions that return. There is no rule for a power with exponent 0: only a literal to the 0 is replaced.", "quantifier": "all expressions without a two-operand '!', all variables and values, all functions, all configurations (the nightly rules included)", "why_tests_cant": "all expressions, and the overlap of every pair of rules", "anchors": ["src/element/simplify.rs: simplify, simplify_for", "src/element/simplify.rs: BinOp::simplify", "src/xprs.rs: simplify_for"]}
{"id": "C86", "title": "What the default build reads", "statement": "With compile-time optimisation the accepted texts and their expressions are exactly given by a grammar in which every operand, every inside of parentheses and every argument is replaced by its simplification (C85) as soon as it has been read, so that a parenthesis that folds to a number counts as a number for what may follow it: 'x+(1+2)3' is (x+3)*3, and '(1+2)3' cannot be read. A text has at most one reading. With nothing replaced the same grammar is the one of C04.", "quantifier": "every non-empty text without '!!' (with it too if the simplification is the one the code performs), every context, every configuration with optimisation", "why_tests_cant": "all texts: the grammar is recursive", "anchors": ["src/parser.rs: parse, element, atom, get_operator_infos"]}
{"id": "C87", "title": "Which brackets can be left out", "statement": "An expression can be written with brackets only around: a left operand joined by a weaker operator, a right operand joined by an operator of the same or less strength, a sum or product under a sign, everything but a number, a name or a call before '!', and a sign left of '^' (also as the exponent of a power). This text is read as the expression, in both precedence modes, and with optimisation if nothing is left to simplify; and no text that is read as the expression has fewer brackets. Exceptions: with pejmdas an implicit product can save brackets ('1/2x'), and so can a number directly after a number ('1+2 3').", "quantifier": "every expression with finite non-negative numbers and one-operand factorials, every text read as it", "why_tests_cant": "all expressions, and for each all texts that might be shorter", "anchors": ["src/parser.rs: element, atom, get_operator_infos", "src/utils/precedence.rs: get_for_op, UNOP_PRECEDENCE"]}
{"id": "C88", "title": "The same result on every machine", "statement": "Without optimisation, what parsing a text answers does not depend on the machine's mathematical library. With optimisation, and for evaluation and partial evaluation, the same holds of texts and expressions without '^' whose functions are only sqrt, abs, floor, ceil, round, trunc, fract, recip, invert and factorial; and, between machines running the same program, also min, max, sum, mean and functions of the user. What can differ is which undeclared variable an error names first. With sin, '^' or 1/min(0,-0) two machines may really answer differently.", "quantifier": "every configuration, context, text, expression, assignment and any two machines (mathematical library, order of hash sets, standard library)", "why_tests_cant": "a test runs on one machine with one mathematical library", "anchors": ["src/utils/built_in_functions.rs", "src/xprs.rs: eval_element, eval_element_unchecked, simplify_for_multiple", "src/element/simplify.rs", "src/parser.rs: parse, element"]}
{"id": "C89", "title": "Debug or release, stable or nightly", "statement": "Builds of the same source with the same features agree. Debug and release builds give the same expression or error for every text but the empty one, the same help, the same partial evaluations and, if fewer than 256 variables are missing, the same bindings. Builds by a stable and a nightly compiler give the same results when the library does not optimise while parsing, or when the text contains no '-'; otherwise the same errors, and expressions with the same values, for texts without a number right after ')' and values meeting no exception of C19. Outside that they can differ: nightly rejects '(-x+x) 5' and evaluates '-x+x' at infinity to 0.", "quantifier": "every pair of configurations, text, context, expression and assignment", "why_tests_cant": "a test suite runs one build", "anchors": ["build.rs: main", "src/element/simplify.rs: BinOp::simplify (cfg(NIGHTLY) arms)", "src/parser.rs: parse, Diagnostic::help", "src/xprs.rs: BindError::from_diff"]}
{"id": "C90", "title": "Joining texts", "statement": "Without optimisation, two accepted texts with '+', '-', '*', '/', '%' or '^' between them, spaced, always make an accepted text reading the variables of both. Each in brackets of its own, the result is the operation applied to the two expressions, and its value the operation on their values. The brackets can be left out around the left text unless its last operation is weaker (or, before '^', it ends in a sign), and around the right text unless its last operation is not stronger; so a list of such texts joined by '+' is read as their sum from the left. A function name applied to accepted texts, as many as it takes, is read as the call on them. The default build also accepts the join, and gives it the operation's value where simplifying preserves values. This needs the spaces ('2e' followed by '+3' is 2000) and texts with no number after a number ('1+2 3' takes in what is put before it). The default build reads a function's name applied to accepted texts as the call on what they are read as, simplified once.", "quantifier": "all configurations, contexts, operators and accepted texts (any number of them)", "why_tests_cant": "programs build formulas by gluing strings; the pairs of texts are unbounded, and whether gluing changes the grouping depends on both", "anchors": ["src/parser.rs: Parser::parse, element, atom, parse_arguments", "src/token/operator.rs: Operator", "src/utils/precedence.rs: Precedence"]}
{"id": "C91", "title": "Text put between brackets", "statement": "Take a text whose brackets are balanced and which has no comma outside them, and put it in brackets anywhere inside a larger text. Without optimisation: if the whole is accepted, the text by itself is accepted, and what it is read as is a part of the whole; so a text that is an error by itself cannot be made valid by what surrounds its brackets. Putting any other accepted text in its place is accepted too, and changes that part of the whole and nothing else, provided no number stands directly after a closing bracket. The default build likewise accepts the text by itself. Without the conditions brackets do not hold a text in: '(' '1) + (x' ')' is accepted though '1) + (x' is not, and 'max(' '1, x' ')' likewise.", "quantifier": "all configurations, contexts, and texts before, inside and after the brackets", "why_tests_cant": "this is what a program relies on when it wraps a user's formula in its own; the texts on both sides are arbitrary", "anchors": ["src/parser.rs: ParserImpl::parse, element, atom, parse_identifier, parse_arguments, argument, get_operator_infos"]}
{"id": "C92", "title": "What a failed unwrap prints", "statement": "The Debug text of an error, on one line as unwrap and expect print it or on several as dbg! does, tells which error it is: two parse errors with the same text have the same kind, the same place and the same parsed text, so two failing parses that print the same, whatever the parsers and builds, are the same failure of the same text; likewise for evaluation and binding errors. The message ends with a Rust literal for the text that was parsed, from which the failure can be reproduced: quotes, backslashes, line ends, control characters and characters the standard library does not show are escaped in such a way that the literal stands for exactly that text and no other, plain ASCII text is shown as it is, and the message is one line without control characters whatever the text contains. The Display text of an error does not tell as much: different failures share it.", "quantifier": "all errors, texts, contexts, configurations, and all tables of printable characters that treat ASCII as the standard library does", "why_tests_cant": "texts are arbitrary Unicode, and that no two of them are printed alike is a statement about pairs", "anchors": ["src/parser.rs: ParseError, ErrorKind (derived Debug)", "src/xprs.rs: EvalError, BindError (derived Debug)"]}
{"id": "C93", "title": "The same program run again", "statement": "The seeds of the hash tables, which the standard library draws anew in every run, influence nothing but the order in which names are listed. With two runs that differ in nothing else, parsing a text gives the same answer: the same expression, the same error at the same place or the same panic; only when variables are declared and several used ones are not, another of them may be named, and the declared ones may be listed in another order. Evaluating and partially evaluating give identical results. Every variant of bind gives the same function, or an error of the same variant whose names may be in another order. In the interactive program, answers given by variable lead to the same value; a session in which no expression has two variables shows the same. With two variables the program may ask for them in another order, so the same standard input can print another value in another run.", "quantifier": "all texts, contexts, configurations, maps of values, names, sessions of any length and all orders of iteration", "why_tests_cant": "a test runs with the seeds it happens to get", "anchors": ["src/xprs.rs: Xprs", "src/parser.rs: parse", "src/bin/repl.rs: ask_for_variables"]}
{"id": "C94", "title": "How words are written does not matter", "statement": "If two texts consist of corresponding words, where signs correspond to themselves, a number to any decimal text of the same real number, and a name to any name that stands for the same thing in the (possibly other) context, then parsing them gives the same: the same expression, the same panic, or the same error at the corresponding words; only an unexpected token is reported as it was written. Two numbers must both or neither begin with a digit, and two names both or neither with a small letter, because this decides whether they may follow an operand without an operator: x 0.5 is a product, x .5 an error. Underscores, zeros in front, zeros behind the point, a point at the end, and e or E make no difference to the number.", "quantifier": "all texts, contexts, configurations, and all pairs of spellings", "why_tests_cant": "there are infinitely many spellings of every number, and the place of the word in the text matters for how it is read", "anchors": ["src/parser.rs: parse_number, parse_identifier, get_operator_infos"]}
{"id": "C95", "title": "Xprs::try_from needs no context", "statement": "Xprs::try_from(text) accepts exactly the texts of the grammar in which every name is that of a built-in constant or function or else a variable (with the optimisation, exactly those texts too, giving a simplified expression). It never complains about undeclared variables. A parser whose context defines none of the names occurring in the text, and declares nothing, answers the same for it; one that declares variables accepts a text that try_from accepts if and only if it declares all its variables, and then gives the same expression.", "quantifier": "all texts (for the grammar: without !! and numbers directly after a closing bracket or value, as in C04), all contexts and configurations", "why_tests_cant": "the claim compares it with every parser and with the grammar, for all texts", "anchors": ["src/xprs.rs: TryFrom for Xprs", "src/parser.rs: Parser::default, parse"]}
{"id": "C96", "title": "Dumps of contexts and parsers tell what they hold", "statement": "The Debug text of a Context or a Parser, on one line or as dbg! prints it, tells what it holds: two of them with the same text, whatever the order in which they were built and the hash seeds of the runs, have under every name either nothing in both, the same number (NaN and the sign of zero included), or functions with the same name, the same number of arguments and the same kind of pointer, and they declare the same variables. If there are no functions of the user's in them, parsers with the same text therefore answer the same for every input. The text lists every entry exactly once, in some order, as a Rust literal for the name followed by the symbol, and then the declared names; it is one line without control characters whatever the names contain. It does not tell which function is meant: parsers that print the same can compute different values.", "quantifier": "all contexts with names in UTF-8, hash orders and tables of printable characters that treat ASCII as the standard library does, all texts to parse", "why_tests_cant": "maps of any size with arbitrary Unicode names; that no two different ones print alike is a statement about pairs", "anchors": ["src/context.rs: Symbol, Context (derived Debug)", "src/parser.rs: Parser (derived Debug)", "src/token/function.rs: Function (derived Debug), Debug for FnPointer"]}
{"id": "C97", "title": "What cancels", "statement": "In the default build the text \"(A) op (B)\" of two accepted texts is read as the first simplification rule that fits the two simplified expressions. So once A's expression settles, is not a zero and has no NaN in it, \"(A) - (A)\" and \"(A) % (A)\" are the number 0 and \"(A) / (A)\" is the number 1, without variables. A factor that simplifies to zero makes \"(A) * (E)\" and \"(E) * (A)\" the number 0 for every accepted E, dropping all of E's variables; in particular \"(x - x) * (E)\" is 0 for every variable x, as documented. Without the conditions this is false: \"(0 - 0 - 3) - (0 - 0 - 3)\" does not cancel.", "quantifier": "all accepted texts A and B without !!, all contexts whose functions return, all operators, both groupings of juxtaposition, stable and nightly, any variable name", "why_tests_cant": "A unit test can try a few texts; whether every accepted text cancels against itself depends on what repeated simplification leaves of it.", "anchors": ["src/lib.rs (documentation of simplification)", "src/element/simplify.rs: Simplify::simplify", "src/parser.rs: element, atom"]}
{"id": "C98", "title": "pemdas and pejmdas compared", "statement": "Switching the feature pemdas to pejmdas changes neither which texts are accepted nor any error, span or list of variables when the optimisation is off. The two expressions differ only in that, under pemdas, of a product of juxtaposed factors standing right of *, / or % only the first is that operator's operand. If no operand right of / or % is directly followed by another operand, the two have the same value on paper (in real arithmetic, whatever powers, remainders and functions mean). With the optimisation, acceptance and errors also agree as long as no variables are declared. The limits are exact: 1/2x at x=2 is 1 under pemdas and 1/4 under pejmdas, 0.1*0.2y rounds differently, and with only y declared \"x/x y\" is accepted under pemdas and refused under pejmdas.", "quantifier": "all texts, contexts and outside worlds; both settings of the other features; all readings of powers, remainders, factorials, functions and variables as real functions", "why_tests_cant": "The two precedences are different builds of the crate, so no test in one build can compare them, and agreement is about every text.", "anchors": ["src/utils/precedence.rs", "src/parser.rs: Parser::element, Parser::atom, Parser::get_current_operator", "README.md (pemdas, pejmdas)"]}
{"id": "C99", "title": "A call of a function defined by a text can be written out", "statement": "Without the optimisation: let a text over some names be parsed, bound with bind_n and registered in a context as a function under a name. Whenever a text that may call the function is accepted, the text in which every call, nested ones included, is replaced by the bracketed body with each name replaced by its bracketed argument is uniquely determined, is accepted without the function, has no variables the first text does not have, and evaluates to the same value whenever the first has one; if the body uses all its names, the two have values for exactly the same assignments. The body must not have a number directly after one of the names, and the limits are exact: with the body \"a 2\" the call h(3) is accepted and \"((3) 2)\" is not; an argument the body does not use must still be evaluable; and in the default build \"h(x) 5\" is accepted while with the body \"a-a+3\" the text \"((x)-(x)+3) 5\" is rejected.", "quantifier": "all bodies, names, contexts, outside worlds, calling texts without \"!!\" and without adjacent numbers, spellings of the written-out text, and variable assignments; both precedences", "why_tests_cant": "The claim quantifies over two texts and every placement and nesting of calls in the second; precedence, juxtaposition and comma handling could break it only for unusual combinations.", "anchors": ["examples/higher_order_functions.rs", "src/xprs.rs: bind_n", "src/context.rs: Context::with_fn", "src/parser.rs: Parser::atom, Parser::parse_function", "src/element/function_call.rs"]}
{"id": "C100", "title": "Sums and products keep their values", "statement": "For an expression built from numbers and variables with + - * (also implicit), signs, factorials, functions that do not tell +0 from -0 and are finite only for finite arguments (among the built-in ones, whatever libm does: sqrt, abs, floor, ceil, round, trunc, fract, factorial, sum, mean), division by fixed numbers and raising to fixed positive numbers, neither the simplification of the default build nor replacing variables early (simplify_for, simplify_for_multiple, in any number of calls) changes a finite value: whenever evaluating the text read without optimisation gives a finite number, reading the same text with the default build succeeds, and evaluating it, or what is left of it after replacing some variables by the same numbers, gives an equal number (a zero may change its sign). For powers this assumes of libm what IEEE 754 recommends: a zero to a positive power is a zero, an infinity or NaN to a positive power is not finite, and the first power is the base. Texts of numbers, names other than those of other functions, + - * / ! ^ , and brackets are read as such expressions if '^' is followed by a positive number and '/' by a number that is a factor of its own. No number may stand directly after ')' (C18). A value that is not finite can change (0*x at infinity), and with % or min a finite one can (x%1 at 2.5, min(1, 0*x) at infinity).", "quantifier": "all such texts and expressions, contexts, outside worlds, assignments, lists of replaced variables; both precedences, debug and release, stable and nightly", "why_tests_cant": "It compares two builds of the crate and ranges over all texts and all floating-point values.", "anchors": ["src/element/simplify.rs: Element::simplify, Element::simplify_for", "src/xprs.rs: simplify_for, simplify_for_multiple", "src/parser.rs", "Cargo.toml: compile-time-optimizations"]}
{"id": "C101", "title": "Functions made from expressions can be used like built-in ones in the default build", "statement": "A text is parsed with the default build, bound to its names with bind_n and registered in a context under a new name; another text calling that function (also in its own arguments) is parsed in this context with the default build. If both texts are built as in C100 and the function's text uses all its names, then the result has the value one gets by reading both texts without optimisation, whenever that value is finite (up to the sign of a zero); and so has the second text with all calls written out as the body in brackets, read with the default build in the context without the function. Such a function is itself one that C100 allows, so this can be repeated with functions using functions. With a remainder in the body it fails: h(a) = a%1, h(2.5).", "quantifier": "all contexts, outside worlds, function texts, names, calling texts, assignments; both precedences, debug and release, stable and nightly", "why_tests_cant": "It relates four parses by two builds for all texts and all floating-point arguments.", "anchors": ["src/xprs.rs: bind_n", "src/context.rs: Context::with_fn", "src/element/simplify.rs", "src/element/function_call.rs", "src/parser.rs"]}
{"id": "C102", "title": "Printed expressions can be used as keys", "statement": "Within one context (where functions go by their own names) two parsed, and perhaps partially evaluated, expressions have the same to_string() exactly if they are the same tree, except that infinite and NaN constants look like variables called inf and NaN. So if no variable has these names, or all constants are finite, the text identifies the expression: results stored under the text are right for every expression with it, whichever build, spacing or brackets it came from, and two parsed expressions with the same text are ==. Limits: '1e999' and 'inf' have the same text; so have calls of different functions of one name (two contexts, or a built-in's own name redefined); expressions that are == can have different texts (2x against x*2); after a substitution two expressions with the same text can list different variables and then are not ==.", "quantifier": "all contexts whose functions go by their own names, all pairs of texts, builds and substitutions", "why_tests_cant": "It compares all pairs of expressions; a collision may need any combination of nesting, negative numbers, and names.", "anchors": ["src/element/mod.rs: Display for Element", "src/element/binop.rs: Display", "src/element/unop.rs: Display", "src/element/function_call.rs: Display", "src/xprs.rs: Display for Xprs, PartialEq"]}
{"id": "C103", "title": "Feature flags and the crates that ask for them", "statement": "The crate is compiled once for all crates that depend on it, with every feature one of them asks for. It compiles exactly if someone asks for pemdas (by name or by taking the default features) or someone for pejmdas, but not both, whoever asks; then it has the precedence asked for, the optimisation exactly if someone asks for it (by name or by defaults), and the nightly rules exactly on the nightly compiler. With pejmdas nobody may take the default features. Order and repetition of the dependents do not matter. If a program still compiles when dependents are added, precedence and compiler stay and the optimisation can only be turned on; then a text without a number directly after ')' gets the same verdict and error, and on the domain of C19 the same values. Refuted without that condition: a crate taking the defaults makes '(1+2)3' rejected for everyone, and changes 'x+(1+2)3' at x = 1 from 10 to 12.", "quantifier": "all lists of dependents with any features, all compiler channels, debug and release; all contexts, texts, assignments", "why_tests_cant": "It quantifies over all programs the crate can be part of; the crate's tests run with one set of features each.", "anchors": ["Cargo.toml: [features]", "build.rs: main", "src/lib.rs: Feature safety", "src/utils/precedence.rs: IMPLICIT_MULTIPLICATION_PRECEDENCE", "src/parser.rs: Parser::parse"]}
{"id": "C104", "title": "Results that need no rounding are not rounded", "statement": "A real number fits if it is a whole number of at most 53 bits times a power of two between 2^-1074 and 2^971; these are exactly the finite 64-bit numbers. If every number met while working out an expression on paper fits - with + - * /, %, signs, factorial, abs, floor, ceil, round, trunc, fract, sqrt, recip, min, max, sum and mean - then eval returns exactly that number, in every configuration: with or without simplification during parsing, and after simplify_for. In particular sums and differences of multiples of one power of two (halves, 64ths, ...) are exact as long as the entries, all taken as positive, add up to less than 2^53 units. One exception: the remainder by 1 of a number that is not whole, which simplification turns into 0 (2.5 % 1).", "quantifier": "every text, context, configuration, world and assignment of finite values to the variables", "why_tests_cant": "all real values and all expressions over them; a test sees a few values, and a value rounded wrongly in the last bit looks right when printed", "anchors": ["src/xprs.rs: Xprs::eval, Xprs::simplify_for", "src/element/simplify.rs: BinOp::simplify", "src/utils/built_in_functions.rs"]}
{"id": "C105", "title": "The REPL when reading or writing fails, and its exit status", "statement": "The REPL ends with status 0 exactly when it printed its farewell last, after a line that says exit; with status 1 if it could not write or read right behind a prompt; otherwise (a panic: an unparsable value, an unreadable value, a failed print) with status 101, and the farewell is then never printed. If writing fails, what has been printed is the beginning of what would have been printed, and the session breaks off there. A line that is not UTF-8, or a failing read, leaves all that was printed before unchanged: where an expression is expected, the exchanges before it are answered and main returns the error behind the prompt; where a value is expected, the expression and the question are shown and the program panics. Lines are accepted exactly when they are UTF-8. Without failures the program does what C67 says.", "quantifier": "every configuration and world, every sequence of input lines of arbitrary bytes with failing reads anywhere, every pattern of failing writes, any number of rounds", "why_tests_cant": "failures can occur at every operation of a session of any length; tests of a binary rarely inject them", "anchors": ["src/bin/repl.rs: main, ask_for_variables"]}
{"id": "C106", "title": "Bounds for the variables give bounds for the result", "statement": "Let every variable of an expression lie between two finite numbers. If the expression is built from numbers, variables, + - * /, signs, floor, ceil, round, trunc, sqrt, abs, min, max and sum, and the usual rules of interval arithmetic apply to it (each divisor's interval stays on one side of zero, square roots are taken of non-negative intervals, all computed ends are finite), then eval succeeds, the value is finite, and it lies between the ends computed with f64's own operations, with no outward rounding needed. Calls of other functions can take part with a range that is known for their arguments and if they do not tell +0 from -0: where libm's sine stays between -1 and 1 and is a zero at the zeros, sin(e) is bounded by -1 and 1 for every bounded e. The same bounds, computed from the text as written, hold for the expression the default build parses, and after fixing any of the variables with simplify_for_multiple. If every variable occurs only once and the expression is built from + - * /, signs, floor, ceil, round, trunc and sqrt, the bounds cannot be improved: each is itself the result of eval for some choice of ends of the variables' intervals (in the default build up to the sign of a zero); with a variable that occurs twice they need not be reached (x - x). Whatever e is, and even if it gives an infinity or NaN, min(max(e, a), b) evaluates to something between a and b. As texts (unoptimised build, names min and max not redefined): for every accepted text t and accepted lo and hi, \"min(max(t, lo), hi)\" is accepted, evaluates whenever the three do, and if the value of lo is at most that of hi it lies between them, and equals t's value if that does. In the default build the same text, with lo and hi read as numbers, always evaluates to something between them, also after simplify_for_multiple.", "quantifier": "all expressions derivable in the interval calculus, all intervals, all values of the variables within them, all libm behaviours and user functions, all texts and contexts (for the parsed forms), all lists of variables fixed first", "why_tests_cant": "The claim is about every point of a box and every nesting of operations; tests sample points, and rounding could push an inner value past an end computed from the corners.", "anchors": ["src/xprs.rs: Xprs::eval, Xprs::simplify_for_multiple", "src/parser.rs: Parser::parse", "src/element/simplify.rs: BinOp::simplify", "src/utils/built_in_functions.rs"]}
