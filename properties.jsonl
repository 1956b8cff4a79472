{"id": "C01", "title": "Euclidean law for eo::zdiv / eo::zmod on numerals", "statement": "For numerals x and y with y non-zero, eo::zdiv and eo::zmod both evaluate, to numerals q and r with x = y*q + r and 0 <= r < |y|; q and r are the only numerals with that property. With y = 0 neither evaluates.", "quantifier": "for every pair of integers of any size and sign", "why_tests_cant": "The correction branch for negative remainders contains a dead inner test; only a handful of sign combinations are exercised by tests and the integers are unbounded.", "anchors": ["src/util/integer.cpp:Integer::euclidianQR", "src/literal.cpp:Literal::evaluate (EVAL_INT_DIV, EVAL_INT_MOD)"]}
{"id": "C02", "title": "eo::zdiv is floor division (manual)", "statement": "The manual says eo::zdiv of two numerals returns their integer division rounded down (floor). Full statement: for every y <> 0 the result is floor(x/y).", "quantifier": "for every pair of integers, including negative divisors", "why_tests_cant": "The regression tests only divide by positive numerals, where floor and Euclidean division coincide.", "anchors": ["src/util/integer.cpp:Integer::euclidianQR", "src/literal.cpp:Literal::evaluate", "user_manual.md:Arithmetic operators"]}
{"id": "C03", "title": "Bit-vector literals stay well formed", "statement": "Every binary or hexadecimal literal obtained by evaluating any eo:: operator on well-formed literals, or by parsing a binary/hexadecimal token, has a width below 2^32 and a value v with 0 <= v < 2^width.", "quantifier": "for every operator, every argument list and every token", "why_tests_cant": "The class invariant is stated only in a comment (and stated the wrong way round); it must survive every operator at every width including width 0.", "anchors": ["src/util/bitvector.h:BitVector", "src/util/bitvector.cpp", "src/literal.cpp:Literal::evaluate"]}
{"id": "C04", "title": "Meaning of bitwise and modular operators", "statement": "On same-width binary values of width w: add, mul and neg are integer addition, multiplication and negation modulo 2^w; and/or/xor/not act bit by bit on positions 0..w-1; zdiv/zmod are unsigned quotient/remainder, with division by zero giving 2^w-1 and remainder by zero giving the dividend. Different widths or mixed categories never evaluate.", "quantifier": "for every width and every pair of values", "why_tests_cant": "Values are unbounded integers underneath; division by zero goes through a bit-setting loop whose bound wraps for width 0.", "anchors": ["src/util/bitvector.cpp", "src/util/integer.cpp:Integer::oneExtend", "src/literal.cpp:Literal::evaluate"]}
{"id": "C05", "title": "Bit-vector concat and extract are inverse slices", "statement": "If the widths sum to less than 2^32, eo::concat a b has width |a|+|b| and its bits are those of b followed by those of a. For indices 0 <= i <= j < |a|, eo::extract a i j has width j-i+1 and bit k of the result is bit i+k of a. Extracting the two halves of a concatenation gives back the arguments, and concatenating the two halves of a split gives back the vector. When j > |a| the result is the slice through the top bit; when i < 0, j < 0, i > j (for in-range j) or i > |a| the result is the empty vector.", "quantifier": "for every pair of bit-vectors and every pair of integers outside the single value j = |a|", "why_tests_cant": "Bit positions and widths are unbounded.", "anchors": ["src/util/bitvector.cpp:BitVector::concat", "src/util/bitvector.cpp:BitVector::extract", "src/literal.cpp:Literal::evaluate (EVAL_EXTRACT)"]}
{"id": "C06", "title": "Bit-vector extract never reads past the top bit", "statement": "Full statement (manual): eo::extract of a binary value returns only bits that exist, i.e. for every pair of indices the width of the result is at most the width of the argument and no result is non-empty when the low index is at or beyond the width.", "quantifier": "for every bit-vector and every pair of indices", "why_tests_cant": "Only the single index value equal to the width is wrong, in a release build it goes unnoticed because the guarding Assert is compiled out.", "anchors": ["src/literal.cpp:Literal::evaluate (EVAL_EXTRACT, i2>dsize)", "src/util/bitvector.cpp:BitVector::extract"]}
{"id": "C07", "title": "Width of a concatenation", "statement": "Full statement: (eo::len (eo::concat a b)) is (eo::add (eo::len a) (eo::len b)) for all binary values a and b.", "quantifier": "for every pair of widths", "why_tests_cant": "Needs widths that sum beyond 2^32; such values are cheap to create (eo::to_bin 4294967295 0) but no test does.", "anchors": ["src/util/bitvector.cpp:BitVector::concat", "src/util/bitvector.h:BitVector::d_size"]}
{"id": "C08", "title": "String literal text round-trips", "statement": "Printing a string value and reading the printed text back as a string literal body gives the same value. In the printed text a character from space to ~ other than the backslash stands for itself, and every other one is written as an escape sequence of such characters.", "quantifier": "for every sequence of code points below 196608, of any length", "why_tests_cant": "The escape reader is a character-level state machine with fallback caching; adjacency of escapes, braces, digits and backslashes gives unboundedly many cases.", "anchors": ["src/util/string.cpp:String::toString", "src/util/string.cpp:String::toInternal"]}
{"id": "C09", "title": "String operators mean what the manual says", "statement": "eo::concat is concatenation, eo::len the number of code points (below 2^32), eo::extract s i j is the characters from position i through min(j,len-1) when 0 <= i and 0 <= j and empty otherwise, eo::find s t is the least position at which t occurs in s and -1 exactly when t does not occur.", "quantifier": "for every pair of strings and every pair of integers", "why_tests_cant": "Strings and indices are unbounded; minimality of find is a statement about all earlier positions.", "anchors": ["src/literal.cpp:Literal::evaluate", "src/util/string.cpp:String::find", "src/util/string.cpp:String::substr"]}
{"id": "C10", "title": "String literal characters are never lost", "statement": "Full statement: a string literal body without escape sequences denotes exactly its characters, so two different bodies denote different strings.", "quantifier": "for every pair of byte sequences accepted between double quotes", "why_tests_cant": "Characters below 32 are accepted by the lexer and silently dropped when the literal is converted; no test contains a tab or newline inside a literal.", "anchors": ["src/util/string.cpp:String::addCharToInternal", "src/expr_parser.cpp:ExprParser::unescapeString"]}
{"id": "C11", "title": "Rational arithmetic is exact and canonical", "statement": "Rational and decimal values are kept with positive denominator and coprime numerator; eo::add, eo::mul, eo::neg, eo::qdiv, eo::to_z (floor), eo::is_neg and eo::gt agree with exact rational arithmetic; equal values are the same literal; eo::qdiv by zero does not evaluate.", "quantifier": "for every pair of rationals", "why_tests_cant": "Numerators and denominators are unbounded.", "anchors": ["src/util/rational.h", "src/util/rational.cpp", "src/literal.cpp:Literal::evaluate"]}
{"id": "C12", "title": "Conversions invert each other", "statement": "eo::to_z of eo::to_q of a numeral is the numeral; eo::to_z of eo::to_str of a code point is the code point and eo::to_str of eo::to_z of a one-character string is the string; eo::to_bin (eo::len b) (eo::to_z b) is b; eo::to_bin w n has value n mod 2^w.", "quantifier": "for every value of each category", "why_tests_cant": "Ranges are unbounded and the interesting points are at category boundaries (196607/196608, 2^32).", "anchors": ["src/literal.cpp:Literal::evaluate (EVAL_TO_INT, EVAL_TO_RAT, EVAL_TO_BIN, EVAL_TO_STRING)"]}
{"id": "C13", "title": "eo::to_str of a numeral that is not a code point", "statement": "Full statement (manual): eo::to_str of a numeral that is negative or at least 196608 does not evaluate.", "quantifier": "for every numeral outside 0..196607", "why_tests_cant": "A missing break in a switch falls through to the rational case; a test that only checks that no code point string is produced does not see it.", "anchors": ["src/literal.cpp:Literal::evaluate (EVAL_TO_STRING)", "user_manual.md:Conversion operators"]}
{"id": "C14", "title": "Literal evaluation is memory safe on accepted arities", "statement": "Full statement: for every operator and every number of literal arguments that the arity check accepts, evaluation reads only arguments that exist.", "quantifier": "for every operator kind and every argument list whose length passes the arity check", "why_tests_cant": "One operator (eo::extract) accepts two arguments but reads a third; no test applies it to two literals.", "anchors": ["src/type_checker.cpp:TypeChecker::checkArity", "src/literal.cpp:Literal::evaluate"]}
{"id": "C15", "title": "Result category of literal operators", "statement": "A literal operator applied to literals either does not evaluate or returns a literal whose category is determined by the operator and the category of its first argument; operators that require same-category arguments never evaluate on mixed categories; the result depends only on the argument values.", "quantifier": "for every operator and every list of literals", "why_tests_cant": "Combinatorial: all operators times all category combinations times unbounded values.", "anchors": ["src/literal.cpp:Literal::evaluate", "src/literal.cpp:allSameKind"]}
{"id": "C16", "title": "Printed literals can be read back", "statement": "Full statement: the printed form of any numeral, rational, binary, hexadecimal or string literal, when lexed and parsed, gives the same literal.", "quantifier": "for every literal value", "why_tests_cant": "Leading zeros of hexadecimal values and embedded double quotes are lost only for particular digit/character patterns.", "anchors": ["src/expr.cpp:Expr::printDebugInternal", "src/util/bitvector.cpp:BitVector::toString", "src/literal.cpp:Literal::toString"]}
{"id": "C17", "title": "Ground and evaluatable flags are exact", "statement": "A term is reported ground exactly when it contains no parameter, and evaluatable exactly when it contains a program symbol or an applied builtin operator (one of the operators listed in the user manual), regardless of sharing and of the order in which flags of subterms were computed earlier.", "quantifier": "for every term DAG and every set of nodes whose flags were already computed", "why_tests_cant": "The computation is an iterative traversal that marks a node as done before its children are; correctness is an invariant over all DAG shapes.", "anchors": ["src/expr.cpp:ExprValue::computeFlags", "src/expr.cpp:ExprValue::isGround", "src/expr.cpp:ExprValue::isEvaluatable"]}
{"id": "C18", "title": "Pattern matching is sound, complete and most general", "statement": "If matching a pattern against a term succeeds, applying the returned substitution to the pattern yields the term; if any substitution of the parameters yields the term then matching succeeds, and the returned substitution agrees with it on every parameter of the pattern and binds nothing else.", "quantifier": "for every pattern, every term and every initial substitution", "why_tests_cant": "The matcher is an iterative worklist with a visited set; non-linear patterns and shared subterms create unboundedly many interleavings.", "anchors": ["src/type_checker.cpp:TypeChecker::match"]}
{"id": "C19", "title": "Programs use the first matching case", "statement": "A program application whose arguments are fully evaluated reduces with the first case whose left side matches, with the substitution of that match, and is left alone exactly when no case matches; a program is never invoked on an argument that failed to evaluate.", "quantifier": "for every program and every argument list", "why_tests_cant": "Order-dependence and partial failure of matching across arguments share one substitution; tests only cover small programs.", "anchors": ["src/type_checker.cpp:TypeChecker::evaluateProgramInternal"]}
{"id": "C20", "title": "The evaluator computes the recursive semantics", "statement": "The evaluation engine (explicit stack of contexts, per-context memo table, cross-call result cache) returns exactly the result of the direct recursive bottom-up evaluation of the term under the substitution.", "quantifier": "for every term, every substitution and every set of program definitions on which the recursive evaluation terminates", "why_tests_cant": "Memoisation, sharing and nested program frames interact; equality with the naive semantics is a statement about all executions of the stack machine.", "anchors": ["src/type_checker.cpp:TypeChecker::evaluate", "src/type_checker.cpp:EvFrame"]}
{"id": "C21", "title": "A program call is evaluated to the end", "statement": "Full statement (manual): a ground application of a program evaluates by rewriting with its cases, and the right-hand side obtained is itself evaluated; so if the chain of rewriting reaches a value, the application evaluates to that value.", "quantifier": "for every program whose rewriting of the call terminates", "why_tests_cant": "Only bodies that are ground and still contain calls are affected; they are only reachable through a nested call, so usual tests pass.", "anchors": ["src/type_checker.cpp:TypeChecker::evaluate (short circuit on ground result)", "src/type_checker.cpp:TypeChecker::evaluateProgramApp"]}
{"id": "C22", "title": "eo::ite only evaluates the selected branch", "statement": "When the condition evaluates to true (false) the result of eo::ite is the result of evaluating the second (third) argument alone, whatever the other branch is - even if evaluating it would diverge or be fatal. With any other condition both branches are evaluated and the term is left as eo::ite.", "quantifier": "for all conditions and branches", "why_tests_cant": "Absence of any influence of the unselected branch cannot be observed by finitely many runs.", "anchors": ["src/type_checker.cpp:TypeChecker::evaluate (EVAL_IF_THEN_ELSE)"]}
{"id": "C23", "title": "Equality tests and requirements", "statement": "eo::eq evaluates exactly on two values and says whether they are the same term; eo::is_eq always evaluates on ground arguments and is true exactly if both are values and the same term; eo::is_ok on a ground term says whether it is a value; eo::requires reduces to its third argument exactly when eo::is_eq of the first two is true.", "quantifier": "for all ground terms", "why_tests_cant": "Quantifies over all pairs of terms, including stuck ones.", "anchors": ["src/type_checker.cpp:TypeChecker::evaluateLiteralOpInternal"]}
{"id": "C24", "title": "List operators on right-associative lists", "statement": "For an operator f with nil terminator declared right-associative and f-lists representing element sequences xs and ys: list_len is the length, list_concat represents xs ++ ys, list_nth the element, list_find the least index or -1, list_rev represents the reversal, cons prepends, list_singleton_elim collapses exactly singletons; on a term that is not an f-list they do not evaluate.", "quantifier": "for every operator, every pair of lists and every element", "why_tests_cant": "Elements may themselves be f-lists or the nil terminator; lists have any length.", "anchors": ["src/type_checker.cpp:TypeChecker::evaluateLiteralOpInternal", "src/type_checker.cpp:getNAryChildren", "src/type_checker.cpp:prependNAryChildren"]}
{"id": "C25", "title": "Erase, set-of, difference, intersection", "statement": "For right-associative lists: list_erase removes the first occurrence, list_erase_all every occurrence, list_setof keeps first occurrences in order, list_diff and list_inter are the multiset difference and intersection keeping the order of the first list.", "quantifier": "for every operator and every pair of lists", "why_tests_cant": "The implementation reuses a suffix of the input when nothing changes after a point; agreement with the naive definition is over all positions.", "anchors": ["src/type_checker.cpp:TypeChecker::evaluateListErase..evaluateListInter"]}
{"id": "C26", "title": "Multiset inclusion and equality", "statement": "list_minclude a b is true iff every element occurs in b at least as often as in a; list_meq a b is true iff a and b are permutations of each other, equivalently both inclusions hold.", "quantifier": "for every pair of lists shorter than 2^32", "why_tests_cant": "Counting through hash maps with a size short-cut; universally quantified over permutations.", "anchors": ["src/type_checker.cpp (list_minclude, list_meq)"]}
{"id": "C27", "title": "Left-associative lists behave analogously", "statement": "Full statement (manual): the list operators on operators with a left-associative nil terminator are defined analogously, so list_rev reverses, list_concat keeps the order of both arguments, list_erase keeps the order of the remaining elements.", "quantifier": "for every left-associative operator and every pair of lists", "why_tests_cant": "Existing tests use lists with one element or symmetric content, where reversal is invisible.", "anchors": ["src/type_checker.cpp:getNAryChildren", "src/type_checker.cpp:prependNAryChildren"]}
{"id": "C28", "title": "Desugaring of variadic applications", "statement": "An application of a symbol with :right-assoc, :left-assoc, :right-assoc-nil, :left-assoc-nil, the non-singleton variants, :chainable, :pairwise or :arg-list produces the term described in the manual, including the treatment of :list parameters.", "quantifier": "for every number of arguments and every pattern of :list markings", "why_tests_cant": "Index arithmetic over an arbitrary number of arguments with direction flags.", "anchors": ["src/state.cpp:State::mkApplyAttr", "src/state.cpp:State::mkApplyInternal"]}
{"id": "C29", "title": "Desugared lists are read back by the list operators", "statement": "For an operator with a nil terminator, applying it to arguments none of which is a :list parameter builds a term which the list operators see as exactly those arguments in order; in particular different argument sequences give different terms.", "quantifier": "for every argument sequence, including arguments that are themselves such applications or the nil terminator", "why_tests_cant": "Unambiguity (injectivity) of the encoding is a statement about all pairs of argument sequences.", "anchors": ["src/state.cpp:State::mkApplyAttr", "src/type_checker.cpp:getNAryChildren"]}
{"id": "C30", "title": "eo::hash is injective and stable", "statement": "Within a run, two hash requests return the same number iff they are for the same term, whatever other requests happen in between; eo::cmp is a strict total order on terms consistent with it (fewer than 2^32 hashed terms, none deleted in between).", "quantifier": "for every history of requests", "why_tests_cant": "A statement about all interleavings of requests.", "anchors": ["src/state.cpp:State::getHash", "src/type_checker.cpp (EVAL_HASH, EVAL_COMPARE)"]}
{"id": "C31", "title": "Variables are determined by name and type", "statement": "Requests for a bound variable return the same variable iff name and type are the same, in any order and with any other operations in between.", "quantifier": "for every history of requests", "why_tests_cant": "A statement about all histories.", "anchors": ["src/state.cpp:State::getBoundVar"]}
{"id": "C32", "title": "Structural sharing: same term iff same object", "statement": "As long as no term has been deleted, two terms built through the construction API are the same object exactly when they have the same kind and the same children (same literal value); a node once built is returned unchanged by every later construction.", "quantifier": "for every history of constructions", "why_tests_cant": "An invariant of the trie and literal tables over all histories.", "anchors": ["src/state.cpp:State::mkExprInternal", "src/state.cpp:State::mkLiteralInternal", "src/expr_trie.h:ExprTrie::get"]}
{"id": "C33", "title": "Deleting a term does not disturb other terms", "statement": "Full statement: removing one entry from the sharing table leaves every other entry findable.", "quantifier": "for every table contents and every key", "why_tests_cant": "Only keys where one is a prefix of the other along an otherwise unbranched path are affected.", "anchors": ["src/expr_trie.h:ExprTrie::remove", "src/state.cpp:State::markDeleted"]}
{"id": "C34", "title": "Deleting a term is memory safe", "statement": "Full statement: removing an entry from the sharing table never touches memory of a node after that node was erased.", "quantifier": "for every table contents and every key present in it", "why_tests_cant": "Use after free is silent in a normal run.", "anchors": ["src/expr_trie.h:ExprTrie::remove"]}
{"id": "C35", "title": "Leaving a scope restores the symbol table", "statement": "After push, any sequence of declarations and balanced inner scopes, and pop, every name resolves to what it resolved to before the push and has the same overload alternatives.", "quantifier": "for every starting table and every balanced sequence", "why_tests_cant": "Overloading is undone through a separate list compared by name only; correctness needs an invariant across arbitrarily nested scopes.", "anchors": ["src/state.cpp:State::bind", "src/state.cpp:State::pushScope", "src/state.cpp:State::popScope"]}
{"id": "C36", "title": "reset forgets everything declared before", "statement": "Full statement (manual): after (reset) all declarations and definitions are gone, so the meaning of later declarations does not depend on those made before.", "quantifier": "for every history before the reset", "why_tests_cant": "Left-over overload tables only show when a name is declared twice after the reset.", "anchors": ["src/state.cpp:State::reset"]}
{"id": "C37", "title": "Overload resolution order", "statement": "Full statement (manual): an application of an overloaded symbol uses the first declared alternative that gives a well-typed term, and an unapplied overloaded symbol means the first declared one.", "quantifier": "for every list of alternatives and every notion of well-typedness", "why_tests_cant": "Only observable when several alternatives type check.", "anchors": ["src/state.cpp:State::getOverloadInternal", "src/state.cpp:State::bind", "user_manual.md:Overloading"]}
{"id": "C38", "title": "Checked proofs are sound", "statement": "If every rule used is valid (truth of premises, and truth of the premises under the assumption for rules with :assumption, implies truth of the conclusion computed by the rule), then for every accepted command sequence that uses only assume at level zero, assume-push, step, step-pop and declarations, every formula proven at level zero is true in every interpretation in which the top-level assumptions are true; and if a reference is active those assumptions are among the reference assertions.", "quantifier": "for every interpretation, rule set and command sequence", "why_tests_cant": "Soundness quantifies over all proofs.", "anchors": ["src/cmd_parser.cpp:CmdParser::parseNextCommand", "src/state.cpp:State::notifyAssume", "src/state.cpp:State::notifyStep", "src/state.cpp:State::addAssumption"]}
{"id": "C39", "title": "Soundness in the presence of push and pop", "statement": "Full statement: the soundness statement of C38 for all accepted command sequences, including the push and pop commands.", "quantifier": "for every command sequence", "why_tests_cant": "push/pop are not balanced against assume-push/step-pop; only particular interleavings leak a local assumption.", "anchors": ["src/cmd_parser.cpp (push, pop)", "src/state.cpp:State::popAssumptionScope"]}
{"id": "C40", "title": "Every assumption used is a reference assertion", "statement": "Full statement (manual): once a reference file has been read, every assume command whose formula is not one of the reference assertions is rejected.", "quantifier": "for every command sequence", "why_tests_cant": "The check is skipped inside local assumption scopes and the extra assumption is not discharged when the scope ends.", "anchors": ["src/state.cpp:State::addAssumption", "src/state.cpp:State::notifyStep"]}
{"id": "C41", "title": "Reference checking stays enabled", "statement": "Full statement: once a reference file has been read (by command or by --reference), reference checking stays enabled until the end of the run, and a second reference is rejected.", "quantifier": "for every sequence of include and reference commands and command line options", "why_tests_cant": "Reading any further file silently clears the flag; the regression tests put includes before the reference.", "anchors": ["src/state.cpp:State::includeFile", "src/main.cpp"]}
{"id": "C42", "title": "Verdict", "statement": "The run prints incomplete exactly if some step or step-pop used a rule marked :sorry, correct otherwise, and only if every command up to the end of input or exit was accepted and no local assumption is open at the end of the file.", "quantifier": "for every command sequence", "why_tests_cant": "A statement about all histories, including re-declared names and rules.", "anchors": ["src/main.cpp", "src/cmd_parser.cpp", "src/stats.h"]}
{"id": "C43", "title": "A step proves what it says", "statement": "An accepted step binds its name to a proof of a formula that is the fully evaluated result of its rule on the given arguments and premises, and equal to the stated conclusion if one is given; an accepted step-pop does so with the assumption of the innermost assume-push.", "quantifier": "for every step in every state", "why_tests_cant": "Quantifies over all rules, arguments and states.", "anchors": ["src/cmd_parser.cpp (STEP, STEP_POP)", "src/state.cpp:State::notifyStep"]}
{"id": "C44", "title": "Every byte of the input file is read", "statement": "Full statement: the lexer reports end of input only at the end of the file, so that no command of a proof file is skipped.", "quantifier": "for every byte sequence", "why_tests_cant": "One byte value (0xFF) is sign-extended to the end-of-file code.", "anchors": ["src/lexer.h:Lexer::readNextChar", "src/lexer.cpp:Lexer::computeNextToken"]}
{"id": "C45", "title": "Buffering is invisible", "statement": "The token sequence does not depend on the size of the read buffer or on how the input stream splits the data.", "quantifier": "for every input and every buffer boundary", "why_tests_cant": "Boundary positions are unboundedly many.", "anchors": ["src/lexer.h:Lexer::readNextChar", "src/lexer.h:Lexer::nextChar"]}
{"id": "C46", "title": "Symbols and string literals survive lexing", "statement": "A simple symbol that is not reserved, followed by white space or a parenthesis, lexes to that symbol; a string value printed with doubled quotes lexes and unescapes to the same characters; white space and comments between tokens do not change the token sequence.", "quantifier": "for every symbol, string and layout", "why_tests_cant": "Unbounded character sequences.", "anchors": ["src/lexer.cpp", "src/expr_parser.cpp:ExprParser::unescapeString"]}
{"id": "C47", "title": "Single-use attributes", "statement": "A literal category gets its type rule at most once (a second, different rule is refused) and a symbol its constructor attribute at most once; after a refusal the first setting is still in force.", "quantifier": "for every history of settings", "why_tests_cant": "History property.", "anchors": ["src/type_checker.cpp:TypeChecker::setLiteralTypeRule", "src/state.cpp:State::markConstructorKind"]}
{"id": "C48", "title": "Accepted rules and programs leave no parameter behind", "statement": "If a rule or program case is accepted (the parameters of the right side occur in the left side), then every successful application to ground arguments yields a ground term before evaluation.", "quantifier": "for every case and every ground argument list", "why_tests_cant": "Quantifies over all terms.", "anchors": ["src/expr_parser.cpp:ExprParser::ensureBound", "src/type_checker.cpp:TypeChecker::evaluateProgramInternal"]}
{"id": "C49", "title": "Including a file twice is the same as including it once", "statement": "A file is processed at most once per run; a repeated include succeeds without any effect.", "quantifier": "for every sequence of includes", "why_tests_cant": "History property.", "anchors": ["src/state.cpp:State::includeFile", "src/state.cpp:State::markIncluded"]}
{"id": "C50", "title": "Free parameter computation", "statement": "The variables reported for a term are exactly the parameters occurring in it, each once; hasVariable answers exactly whether some given parameter occurs.", "quantifier": "for every term and variable set", "why_tests_cant": "Iterative traversal with visited sets over arbitrary DAGs.", "anchors": ["src/expr.cpp:Expr::getVariables", "src/expr.cpp:Expr::hasVariable"]}
{"id": "C51", "title": "Literal storage is read as it was written", "statement": "A literal produced by an operator and then stored or looked up is read through the same representation it was written with, so that no result depends on how the compiler lays out numbers.", "quantifier": "for every operator and argument list", "why_tests_cant": "The misread works by accident with today's GMP layout; no test can see it.", "anchors": ["src/literal.cpp:Literal::evaluate", "src/literal.h:Literal", "src/state.cpp:State::mkLiteralInternal"]}
{"id": "C52", "title": "Boolean and integer operators compute the mathematical result", "statement": "and, or, xor, not on Booleans and add, mul, neg, is_neg, gt on numerals (gt also on bit-vector values) give the mathematical result.", "quantifier": "for every number of arguments and all values", "why_tests_cant": "All integers.", "anchors": ["src/literal.cpp:Literal::evaluate"]}
{"id": "C53", "title": "List operators evaluate only on values", "statement": "Full statement (manual, list computations): the list operators do not evaluate when an argument is not a value, for instance when it contains a stuck application of an eo:: operator.", "quantifier": "for every list operator and all ground arguments", "why_tests_cant": "Stuck terms arise only from other failed computations; the set of such arguments is infinite.", "anchors": ["src/type_checker.cpp:TypeChecker::evaluateLiteralOpInternal"]}
{"id": "C54", "title": "A term in use is never freed", "statement": "Any term for which the program still holds a handle, and every subterm of it, is not freed, whatever other terms are built, shared and dropped in between.", "quantifier": "for every history of requests that drops only handles it was given", "why_tests_cant": "Reference counting errors show only for particular interleavings of sharing and dropping.", "anchors": ["src/expr.cpp:Expr::Expr", "src/expr.cpp:ExprValue::dec", "src/state.cpp:State::markDeleted"]}
{"id": "C55", "title": "A term not in use is freed", "statement": "Full statement: an application is freed once no handle to it or to a term containing it is left.", "quantifier": "for every history of requests", "why_tests_cant": "Leaks are invisible in the results.", "anchors": ["src/state.cpp:State::markDeleted", "src/expr.cpp:ExprValue::~ExprValue"]}
{"id": "C56", "title": "eo::hash and eo::cmp do not depend on memory management", "statement": "Full statement: within a run, equal terms have the same hash and are ordered the same way at any two points in time, also if the term was dropped and rebuilt in between.", "quantifier": "for every history of requests", "why_tests_cant": "Only particular interleavings of dropping and rebuilding show a difference.", "anchors": ["src/state.cpp:State::getHash", "src/state.cpp:State::markDeleted"]}
{"id": "C57", "title": "The alternatives of a name were declared with that name", "statement": "Full statement: when a name is applied, only symbols that were declared or defined with this name are considered as the meaning of the application.", "quantifier": "for every sequence of declarations, definitions and scopes", "why_tests_cant": "Needs particular combinations of overloading and defining one name as another.", "anchors": ["src/state.cpp:State::bind", "src/state.cpp:State::mkExpr"]}
{"id": "C58", "title": "A checked refutation refutes its reference", "statement": "Full statement: if a proof with a reference is accepted, concludes false outside of every assume-push and all rules it uses are valid, then no interpretation makes all assertions of the reference true.", "quantifier": "for every interpretation, rule set, proof and reference", "why_tests_cant": "Combines soundness of all steps with the comparison of all assumptions; no finite set of proofs settles it.", "anchors": ["src/state.cpp:State::addAssumption", "src/state.cpp:State::includeFile", "src/cmd_parser.cpp:CmdParser::parseNextCommand"]}
{"id": "C59", "title": "Applying a macro substitutes simultaneously", "statement": "Applying a lambda (what define with parameters binds its name to) to as many arguments as it has variables gives the value of its body where the i-th variable stands for the i-th argument, for all variables at once; if the body contains nothing to compute this is exactly the body with the arguments put in.  With another number of arguments nothing is substituted and the application is kept.", "quantifier": "for every variable list, body and argument list, including arguments that mention the variables themselves and repeated variables", "why_tests_cant": "Simultaneous and sequential substitution agree on most examples; the difference needs particular overlaps of variables and arguments.", "anchors": ["src/state.cpp:State::mkExpr", "src/type_checker.cpp:TypeChecker::evaluate", "src/cmd_parser.cpp:CmdParser::parseNextCommand"]}
{"id": "C60", "title": "Operators with any number of arguments", "statement": "eo::and, eo::or, eo::xor, eo::add, eo::mul and eo::concat, and no other eo:: operator, accept more than two arguments, and then mean the operator applied from left to right: over numerals a sum or product, over Booleans a conjunction, disjunction or parity, over strings the concatenation in order.", "quantifier": "for every number of arguments, with or without values that can be computed", "why_tests_cant": "The number of arguments is unbounded, and stuck sub-applications interact with the order.", "anchors": ["src/state.cpp:State::mkExpr", "src/kind.cpp:isNaryLiteralOp", "src/type_checker.cpp:TypeChecker::evaluateLiteralOp"]}
{"id": "C61", "title": "Opaque arguments", "statement": "Applying a symbol declared with k opaque arguments to at least k arguments makes exactly the first k of them opaque, in order, and applies the result to the remaining ones; with fewer than k arguments no argument is opaque.", "quantifier": "for every k below 2^32 and every number of arguments", "why_tests_cant": "Index arithmetic on arbitrary lengths.", "anchors": ["src/state.cpp:State::mkApplyAttr", "src/state.cpp:State::mkExpr"]}
{"id": "C62", "title": "Applications of programs and rules", "statement": "Writing an application of a program to as many arguments as its type has calls the program at once: the result is the value of the first case that matches, or the unchanged application if the program is stuck or undefined.  With another number of arguments it is not called.  Applications of programs and rules keep all arguments at one node.", "quantifier": "for every program, case list and arguments", "why_tests_cant": "Whether a call happens depends on the shape of every argument and on all earlier cases.", "anchors": ["src/state.cpp:State::mkExpr", "src/type_checker.cpp:TypeChecker::evaluateProgramInternal"]}
{"id": "C63", "title": "The type checker implements the typing rules", "statement": "The checker gives a term a type exactly if the declarative typing rules do, and then that type: symbols have their declared types; literals the type of their literal rule, instantiated with the literal; an application is typed if the types of the arguments (or, for quoted argument types, the arguments themselves) are instances of the argument types of the head under one common substitution, and its type is the evaluated result type under it; lambdas have the arrow from the types of their variables; every eo:: operator has a fixed signature.  A term has at most one type, an answer 'no type' is final, and a function from A to B without parameters in its type accepts exactly the terms of type A.", "quantifier": "for every environment of declarations, every term and every type, including dependent and polymorphic types with computations in them", "why_tests_cant": "Types depend on matching with shared state between arguments, on evaluation and on each other; tests only sample combinations.", "anchors": ["src/type_checker.cpp:TypeChecker::getType", "src/type_checker.cpp:TypeChecker::getTypeInternal", "src/type_checker.cpp:TypeChecker::getTypeAppInternal", "src/type_checker.cpp:TypeChecker::getLiteralOpType", "src/type_checker.cpp:TypeChecker::getOrSetLiteralTypeRule", "src/type_checker.cpp:TypeChecker::match"]}
{"id": "C64", "title": "A step follows the declaration of its rule", "statement": "For every step of an accepted run there is an earlier declare-rule command for its rule such that: the step discharges an assumption exactly if the rule has :assumption; a formula is stated if the rule has :conclusion-explicit, and a stated formula is the conclusion; the arguments, stated formula, assumption and premises of the step (or the one formula gathered from the premises for :premise-list) are, in this order and in this number, one common instance of the :args, conclusion, :assumption and :premises patterns of the declaration; both sides of every :requires pair, instantiated the same way, have equal values with nothing left to compute; and the conclusion is the value of the declared :conclusion under that instance.  This holds unless the rule has no patterns at all and is used with inputs.", "quantifier": "for every run without reset, every step in it, and every rule declaration with any number of premises, arguments and requirements", "why_tests_cant": "It relates a step to a declaration arbitrarily far back in the input, through a program generated by the checker that no user ever sees; a requirement that is checked too weakly accepts wrong steps only.", "anchors": ["src/cmd_parser.cpp:CmdParser::parseNextCommand", "src/state.cpp:State::notifyStep", "src/state.cpp:State::mkRequires", "src/type_checker.cpp:TypeChecker::evaluateProgramInternal"]}
{"id": "C65", "title": "Only formulas are assumed and concluded", "statement": "Every term introduced by assume or assume-push has type Bool, and so has every conclusion of a step, by the typing rules and in the state in which the command is checked.", "quantifier": "for every accepted run without reset and every assumption and step in it", "why_tests_cant": "The conclusion is computed by programs; only a proof can show that the check sits on every path.", "anchors": ["src/cmd_parser.cpp:CmdParser::parseNextCommand", "src/expr_parser.cpp:ExprParser::parseFormula", "src/expr_parser.cpp:ExprParser::typeCheckExpr"]}
{"id": "C66", "title": "Terms are read by the recursive grammar", "statement": "Reading a term from the input gives exactly the term that the recursive grammar of S-expressions assigns to it: names and literals stand for themselves, (f t ... t) is the application of the readings of its parts in order, the variables of a quantifier and the definitions of a let are bound, in a scope of their own, for exactly the part of the S-expression they belong to, annotations are skipped. The words of the S-expression are consumed and no other ones, and an S-expression without a reading is refused.", "quantifier": "for every S-expression of any depth, every state, and every position in the input", "why_tests_cant": "The parser is a loop over an explicit stack of partly read terms with words put back into the lexer; that it agrees with the recursive grammar on arbitrarily nested mixtures of applications, binders, lets and annotations cannot be sampled.", "anchors": ["src/expr_parser.cpp:ExprParser::parseExpr", "src/expr_parser.cpp:ExprParser::parseAndBindSortedVarList", "src/expr_parser.cpp:ExprParser::parseAndBindLetList", "src/lexer.cpp:Lexer::nextToken", "src/lexer.cpp:Lexer::reinsertToken"]}
{"id": "C67", "title": "Names bound inside a term are local, and let is an abbreviation", "statement": "After a term has been read, every name stands for the same term as before, with the same alternatives, and no other part of the state has changed.  If the names bound in the term were free, the term is what static scoping makes of it (a variable or definition is visible in exactly the part it belongs to, everything else means what it means outside) and reading it leaves every name, rule and symbol as it was.  Writing the value of a let in place of its name gives the same term.", "quantifier": "for every term of any nesting of quantifiers, lets and annotations, and every state that a run without reset ends in", "why_tests_cant": "Binding and unbinding are pushes and pops on four global tables interleaved with building terms; that they cancel out in every nesting cannot be sampled.", "anchors": ["src/expr_parser.cpp:ExprParser::parseExpr", "src/expr_parser.cpp:ExprParser::parseAndBindSortedVarList", "src/expr_parser.cpp:ExprParser::parseAndBindLetList", "src/state.cpp:State::bind", "src/state.cpp:State::pushScope", "src/state.cpp:State::popScope"]}
{"id": "C68", "title": "A name bound inside a term hides the outer one, without lasting effect", "statement": "Inside a let or quantifier a bound name denotes what it is bound to even if it denotes something else outside; other symbols are not affected, and after the term everything means what it would mean without the term.", "quantifier": "for every term that binds a name that is in use", "why_tests_cant": "Needs two runs that differ in a term far back to be compared in a later application.", "anchors": ["src/state.cpp:State::bind", "src/state.cpp:State::popScope", "src/state.cpp:State::mkExpr", "src/state.cpp:State::getOverloadInternal"]}
{"id": "C69", "title": "Each command does exactly what its grammar says", "statement": "Let a command be a list of words with balanced parentheses (set-info and set-option with a value).  It is accepted iff it has one of the names of commands of its kind of file and its items are what the grammar of this command says (names, types, parameters with attributes, premises, cases, constructors ...); then exactly its words are consumed and the state (symbols, their types and attributes, scopes, names, assumptions, reference assertions, options) changes as the grammar says and not otherwise; only exit ends the file.", "quantifier": "for every command, every state, every list of words and every set of included files", "why_tests_cant": "Thirty commands with optional and repeated parts, each looking ahead and putting words back; that what is accepted is exactly the grammar, and that no state is changed besides, is a statement about all inputs of all lengths.", "anchors": ["src/cmd_parser.cpp:CmdParser::parseNextCommand", "src/expr_parser.cpp:ExprParser::parseAndBindSortedVarList", "src/expr_parser.cpp:ExprParser::parseAttributeList", "src/expr_parser.cpp:ExprParser::parseDatatypesDef", "src/expr_parser.cpp:ExprParser::parseConstructorDefinitionList", "src/state.cpp:State::mkSymbol", "src/state.cpp:State::bind", "src/state.cpp:State::markConstructorKind"]}
{"id": "C70", "title": "A run is the sequence of the commands of its files", "statement": "A run gives an answer iff its files can be read as sequences of commands: the files of the command line in order, then the input; a file is read once, as a signature, a reference or a proof; an included file is read where it is included; exit ends a file; a file may not leave an assumption open.  The final state is the one that these commands produce, and the answer is incomplete iff a step used a rule marked :sorry.", "quantifier": "for every set of files whose texts have balanced parentheses, every list of inclusions and every input", "why_tests_cant": "Quantifies over whole programs and their inclusions; tests run single files.", "anchors": ["src/main.cpp:main", "src/state.cpp:State::includeFile", "src/parser.cpp:Parser::parseNextCommand", "src/cmd_parser.cpp:CmdParser::parseNextCommand"]}
{"id": "C71", "title": "A command is one list", "statement": "A command that is accepted ends at the parenthesis that closes it.", "quantifier": "for every text with balanced parentheses", "why_tests_cant": "The exception needs a command without the value it should have, followed by another list.", "anchors": ["src/expr_parser.cpp:ExprParser::parseSymbolicExpr", "src/cmd_parser.cpp:CmdParser::parseNextCommand"]}
{"id": "C72", "title": "Declared datatypes are defined and named", "statement": "After declare-datatype and declare-datatypes every declared name denotes a datatype with its constructors.", "quantifier": "for every declaration that is accepted", "why_tests_cant": "Needs the state after the declaration to be inspected; the later error, if any, is reported elsewhere.", "anchors": ["src/expr_parser.cpp:ExprParser::parseDatatypesDef", "src/cmd_parser.cpp:CmdParser::parseNextCommand"]}
{"id": "C73", "title": "Names are printed so that they are read back", "statement": "The word printed for a symbol is read by the lexer and the parser as the name of this symbol, and the word printed for an operator is bound to this operator.", "quantifier": "for all names and operators", "why_tests_cant": "Names are arbitrary texts; quoting interacts with the scanner on every character.", "anchors": ["src/expr.cpp:quoteSymbol", "src/kind.cpp:kindToTerm", "src/lexer.cpp:Lexer::computeNextToken", "src/state.cpp:State::State"]}
{"id": "C74", "title": "Terms are printed as they are built", "statement": "Without sharing, the text printed for a term is its recursive writing: leaves as words, applications as lists of their parts with the word of the kind, variables with their name and type.", "quantifier": "for all terms", "why_tests_cant": "The printer is a loop with an explicit stack; terms are unbounded in size and depth.", "anchors": ["src/expr.cpp:Expr::printDebugInternal", "src/expr.cpp:Expr::getPrintChildren"]}
{"id": "C75", "title": "Shared terms are printed once", "statement": "With sharing, each compound subterm is written out exactly once, exactly those with several occurrences are given names, each name is defined before it is used, and expanding the definitions gives the text without sharing.", "quantifier": "for all terms", "why_tests_cant": "Needs all sharing patterns of directed acyclic graphs; the text without sharing may be exponentially larger.", "anchors": ["src/expr.cpp:Expr::computeLetBinding", "src/expr.cpp:Expr::printDebug"]}
{"id": "C76", "title": "Printed terms are read back", "statement": "A term that is printed, with or without sharing, and read again is the same term; exactly the printed text is consumed and no name, rule or symbol changes.", "quantifier": "for every state that a run without reset ends in, every term built from symbols without attributes, literals, variables, function types and operators, and every text that follows", "why_tests_cant": "Combines the printer, the scanner and the parser on terms of any depth and sharing; the exceptions are particular terms.", "anchors": ["src/expr.cpp:Expr::printDebugInternal", "src/expr.cpp:Expr::printDebug", "src/expr.cpp:Expr::computeLetBinding", "src/literal.cpp:Literal::toString", "src/expr_parser.cpp:ExprParser::parseExpr", "src/lexer.cpp:Lexer::computeNextToken"]}
{"id": "C77", "title": "The command line means what it says", "statement": "Every list of arguments is in exactly one way a list of switches, inclusions, requests for a message, trace requests and names of files.  If none of them ends the program and at most one file is named, the run has the last mentioned value of every switch, wherever it stands, the inclusions in their order, and the file or standard input, and the answer is that of this run; otherwise the first item that ends the program decides.  An argument that is not recognized is never ignored.", "quantifier": "for all lists of arguments, all files and all inputs", "why_tests_cant": "Arguments can be combined and repeated in any order; a misread argument shows as a wrong verdict for some other combination.", "anchors": ["src/main.cpp:main", "src/state.cpp:Options::setOption"]}
{"id": "C78", "title": "Types do not depend on what was asked before", "statement": "The type that getType delivers for a term, from the cache or not, is the type computed anew from the declarations, whatever types were asked for and whatever terms were deleted before; a type that can be computed is delivered.", "quantifier": "for all declarations, all terms and all sequences of earlier calls and deletions", "why_tests_cant": "The cache is shared by all calls, also nested ones made while evaluating types; a wrong entry shows only in a later use of the same term.", "anchors": ["src/type_checker.cpp:TypeChecker::getType", "src/type_checker.cpp:TypeChecker::getTypeInternal", "src/state.cpp:State::lookupType", "src/state.cpp:State::mkSymbolInternal", "src/state.cpp:State::markDeleted"]}
{"id": "C79", "title": "Declarations do not change existing symbols", "statement": "No command changes the name or the type of an existing symbol, or the attribute of a symbol that has one (the definition of a program or rule, how a constant is applied, the constructors of a datatype); no symbol is made twice.", "quantifier": "for all commands, files and runs", "why_tests_cant": "Tests see a few later declarations; this is about every sequence of commands, inclusions and resets.", "anchors": ["src/state.cpp:State::mkSymbolInternal", "src/state.cpp:State::markConstructorKind", "src/state.cpp:State::defineProgram", "src/cmd_parser.cpp:CmdParser::parseNextCommand"]}
{"id": "C80", "title": "Types and values do not depend on names", "statement": "What names stand for, which names are in scope and which alternatives a symbol has does not influence the type of any term, the value of any operator application or the value of any term.  In particular reading a term, whatever it binds inside, changes no type and no value.", "quantifier": "for every state, every change of the tables of names, every term and every expression that is read", "why_tests_cant": "The type checker and the evaluator share the table of attributes (d_appData) with overloading; that overloading never leaks into them is a statement about all recursive calls on all terms.", "anchors": ["src/type_checker.cpp:TypeChecker::getType", "src/type_checker.cpp:TypeChecker::evaluate", "src/type_checker.cpp:TypeChecker::evaluateLiteralOpInternal", "src/state.cpp:State::bind", "src/state.cpp:State::getProgram"]}
{"id": "C81", "title": "Types and values depend only on what a term is made of", "statement": "If two states know the same about the symbols a term is made of (their types, attributes and names, and the types of literals), the term has the same type and the same value in both.  So no command and no file changes the type or the value of a term made of symbols that existed before it, unless it gives one of these symbols its attribute (the definition of a program declared before) or gives a type to a class of literals.", "quantifier": "for all terms, all values of variables, all states reached without reset, all commands and files", "why_tests_cant": "Tests compare a few terms before and after a few declarations; this is about every term and every later command, through all recursive calls of the type checker and the evaluator.", "anchors": ["src/type_checker.cpp:TypeChecker::getType", "src/type_checker.cpp:TypeChecker::evaluate", "src/type_checker.cpp:TypeChecker::evaluateProgramInternal", "src/state.cpp:State::mkSymbolInternal", "src/state.cpp:State::markConstructorKind"]}
{"id": "C82", "title": "Everything that can be named is made of symbols that exist", "statement": "Whatever a visible name stands for, the type of a symbol, the terms its attribute holds (definition, nil terminator, constructors), the types of literals, the assumptions and every term that is read are made of symbols that have been declared, bound variables and literals only.", "quantifier": "for all runs without reset and all terms read afterwards", "why_tests_cant": "A dangling reference shows only for the combination of commands that leaves one behind; the property ranges over all runs.", "anchors": ["src/state.cpp:State::mkSymbolInternal", "src/state.cpp:State::bind", "src/state.cpp:State::markConstructorKind", "src/expr_parser.cpp:ExprParser::parseExpr", "src/type_checker.cpp:TypeChecker::getType"]}
{"id": "C83", "title": "Evaluation keeps the types of terms", "statement": "If a term has a type and evaluates, then the value has the same type: for constants, parameters with values of their types, literals, applications, function types, eo:: operators that compute Booleans, numbers, strings and bit-vectors, eo::ite with branches of the same type, eo::requires, and calls of (recursive) programs whose patterns and right-hand sides have the declared types. It is false in general: for literals whose type depends on the literal (bit-vector widths), for eo::zdiv and eo::zmod on bit-vectors, for eo::ite with branches of different types, and for programs whose right-hand side has another type than declared, which are accepted without an error.", "quantifier": "all environments, programs, substitutions, terms, types and values", "why_tests_cant": "Tests look at single terms; that no evaluation whatsoever, of any depth of recursion, changes a type is a statement about all derivations of both relations.", "anchors": ["src/type_checker.cpp:225-422 (TypeChecker::getTypeInternal, getTypeAppInternal)", "src/type_checker.cpp:540-833 (TypeChecker::evaluate)", "src/type_checker.cpp:1048-1500 (TypeChecker::evaluateLiteralOpInternal)", "src/expr_parser.cpp:1216-1233 (ExprParser::typeCheckProgramPair)"]}
{"id": "C84", "title": "Documented names mean what the manual says", "statement": "As long as it is not declared again, the documented name of an operator (eo::add, eo::list_concat, as, ...) denotes that operator and nothing else, -> builds function types, true and false are the Booleans, and the keywords of attributes and categories of literals are those of the manual.  An application of eo::and, eo::or, eo::add, eo::mul, eo::concat (to any number of arguments), eo::zdiv, eo::zmod, eo::qdiv, eo::gt, eo::len, eo::extract, eo::find, eo::ite, eo::eq, the tests and the conversions to values is read as the value that arithmetic, Boolean algebra or strings give.  Of the 149 examples of the manual seven do not hold.", "quantifier": "for all states, all arguments, all values and any number of arguments", "why_tests_cant": "The manual gives examples with small values; the theorem is about all values, all ways the arguments are written, and all states that leave the name alone.", "anchors": ["src/state.cpp:99-186 (State::State)", "src/state.cpp:629-839 (State::mkExpr)", "src/expr_parser.cpp:63-92 (ExprParser::ExprParser)", "src/type_checker.cpp:1048-1505 (TypeChecker::evaluateLiteralOpInternal)", "user_manual.md:755-1123"]}
{"id": "C85", "title": "The derived definitions compute what the built-in operators compute", "statement": "With the programs and macros of tests/eo-definitions.eo loaded and $eo_nil defined for an operator as the manual says, writing $eo_X instead of eo::X gives the same value: for eq on any two values, is_eq, is_z, is_q, is_bin, is_str and is_bool on any argument without parameters whether it is evaluated or not, is_var on values with a type, where a variable is the one that its name and type determine, gt on numerals and rationals, cmp on values whose hash fits 32 bits, and cons, list_len, list_concat, list_nth, list_find, list_rev, list_erase, list_erase_all, list_setof, list_diff, list_inter, list_minclude, list_meq and list_singleton_elim on any lists of a right associative operator; $eo_is_list tells the lists of the operator from everything else, and list_nth without such an element evaluates in neither form. It is not so for lists of a left associative operator, which the manual includes, nor for gt on bit-vectors.", "quantifier": "for every environment, operator, list and element; every number of calls", "why_tests_cant": "The programs recurse on the list: tests compare a few lists of fixed length (tests/eo-definitions-test.eo)", "anchors": ["tests/eo-definitions.eo", "user_manual.md:2178-2240", "src/type_checker.cpp:evaluateLiteralOpInternal", "src/type_checker.cpp:evaluateProgramInternal"]}
{"id": "C86", "title": "Built-in lists hold terms of any types", "statement": "Throughout a run eo::List is a type, eo::List::nil has this type and eo::List::cons has type (-> T eo::List eo::List) for a parameter T and is right associative with eo::List::nil as its terminator, as the manual says.  A list of any number of terms has type eo::List if each of them has some type, and no type otherwise; (eo::List::cons t1 ... tn) is read as the list with exactly these elements, lists marked :list being put in.", "quantifier": "for all runs, all lists of terms of whatever types, all ways of writing the arguments", "why_tests_cant": "Tests use a few lists of constructors; the claim is about every combination of types and every state", "anchors": ["src/state.cpp:174-186 (State::State)", "src/type_checker.cpp:324-470 (TypeChecker::getTypeAppInternal)", "src/state.cpp:629-839 (State::mkExpr)", "user_manual.md:1348-1374"]}
{"id": "C87", "title": "Bad input never leads to undefined behaviour", "statement": "Whatever the input is, ethos answers or refuses it: it never reads outside a vector.  In particular, computing the type of a term and evaluating a term, for any types, programs and values of its parameters, is safe, as long as each application and each use of an operator has at least the arguments that the manual gives it.", "quantifier": "for all terms, environments, programs and values of parameters; every number of nested calls", "why_tests_cant": "Undefined behaviour need not show in a test that runs into it, and the terms that lead to it are built during evaluation", "anchors": ["src/type_checker.cpp:225-322 (TypeChecker::getTypeInternal)", "src/type_checker.cpp:540-833 (TypeChecker::evaluate)", "src/type_checker.cpp:1048-1505 (TypeChecker::evaluateLiteralOpInternal)", "src/expr_parser.cpp:236-251 (ExprParser::parseExpr)"]}
{"id": "C88", "title": "A literal has the value that is written", "statement": "A word of decimal digits with an optional minus sign is read as the numeral with this value, digits with a decimal point as the decimal with exactly this value (a sign also counts for -0.5), numerator/denominator as the exact quotient in lowest terms, and as no term if the denominator is zero; #x followed by n hexadecimal digits in either case is the bit-vector of width 4n, and #b followed by n binary digits that of width n, with the value of the digits.  A text between quotes, with the quotes in it doubled, is the string with its characters, in which exactly the escape sequences of SMT-LIB (four hexadecimal digits, or one to five in braces and below 0x30000) stand for their code points and control characters do not count.  With --normalize-num, --normalize-dec and --normalize-hex the kind changes to rational or binary and the value and width do not.", "quantifier": "for all words of any length (below 2^30 digits for bit-vectors), and all combinations of the options", "why_tests_cant": "Numbers are unbounded; tests read a few short ones", "anchors": ["src/state.cpp:849-870 (State::mkLiteral)", "src/util/rational.cpp:26-43 (Rational::fromDecimal)", "src/util/integer.cpp:20-22", "src/util/bitvector.cpp:15-28", "src/util/string.cpp:71-195 (String::toInternal)", "src/expr_parser.cpp (ExprParser::parseExpr, literals)"]}
{"id": "C89", "title": "The list operators obey the laws of lists and multisets", "statement": "For every right associative operator f with a nil terminator, whatever terms evaluate to the lists a, b, c and to the element x: reversing twice gives the list back, concatenation is associative, (eo::list_rev f (eo::list_concat f a b)) is the concatenation of the reversed lists in the other order, the length of a concatenation is the sum of the lengths, eo::list_setof is idempotent and its result is included in its argument, the difference and the intersection of a and b together are a as a multiset and the intersection is included in b, eo::list_nth at the position eo::list_find gives is the element, eo::list_erase_all distributes over concatenation, and eo::list_find no longer finds an element that was erased.", "quantifier": "for all operators, all lists of values (below 2^32 elements where the code counts in 32 bits), all terms that evaluate to them, all environments and substitutions", "why_tests_cant": "The laws combine several operators on lists of any length and any elements; tests compute single examples", "anchors": ["src/type_checker.cpp:1386-1700 (list operators of TypeChecker::evaluateLiteralOpInternal, TypeChecker::evaluateList*Internal)", "user_manual.md:985-1100 (list computations)"]}
{"id": "C90", "title": "The operators on literals obey the laws of arithmetic, bits and strings", "statement": "Whatever terms evaluate to the literals: on numerals, decimals, rationals and bit-vectors of one width, eo::add and eo::mul are commutative and associative, eo::mul distributes over eo::add, eo::neg is an involution and adding the negation undoes an addition; on Booleans and bit-vectors of one width, De Morgan's laws, double complement, distributivity and (a xor b) xor b = a hold; b * (a zdiv b) + (a zmod b) is a, also for bit-vectors divided by zero, and (a qdiv b) * b is a as a rational; concatenation of strings is associative, its length is the sum, its two parts can be extracted again, and extracting at the position that eo::find gives yields the string that was looked for. For numbers of one category and bit-vectors of one width exactly one of (eo::gt a b), (eo::gt b a) and (eo::eq a b) is true, and eo::gt is transitive.", "quantifier": "for all literals of any size (strings below 2^32 characters), all terms that evaluate to them, all environments and substitutions", "why_tests_cant": "The laws relate several operators on all numbers, widths and strings; tests compute single examples", "anchors": ["src/literal.cpp:140-494 (Literal::evaluate)", "src/util/integer.cpp", "src/util/rational.h", "src/util/bitvector.cpp", "src/util/string.cpp", "src/type_checker.cpp:1301-1330"]}
