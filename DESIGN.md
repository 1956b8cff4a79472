# Design of the verification of Ethos

Subject: the Eunoia proof checker in `/repo` (C++).  The model is written in
Rocq/Coq 8.16.1, under `rocq/theories`, logical name `Verif`.

## 1. Principles

* The model follows the C++ function by function.  Every definition in a model
  file carries a comment with the file and lines it is taken from and, where it
  simplifies, says so.
* Model files contain total, computable functions and no proofs.  Specification
  files (`Spec*.v`) say what is wanted with as few notions as possible and do
  not use the helpers of the model.  Proof files prove lemmas.  `Prop*.v` files
  contain the property theorems, their non-vacuity `Example`s, and
  `Print Assumptions`.
* Outcomes.  A function which can fail has type `res A`: `Ok a` (normal), `Err`
  (a reported error, EO_FATAL or a parse error: the run ends without a verdict),
  `UB` (undefined behaviour: out-of-bounds read, null dereference, use after
  free, ...), `Fuel` (only where there is no structural termination; it means
  "not finished within the bound" and is never a verdict).
* `Assert` is compiled out in the release build (CMakeLists.txt 45-50,
  base/check.h 131-137), which is the default.  The model follows the release
  build: an `Assert` has no effect; if what follows is undefined when the
  condition fails, the outcome is `UB`.
* Machine integers: `uint32_t` values are `Z` with an explicit reduction modulo
  2^32 at each place where the code narrows or computes in that type.  GMP
  integers are `Z`, GMP rationals are canonical numerator/denominator pairs.
  `size_t` quantities that count objects in memory are unbounded.
* Pointers.  Ethos shares structurally equal terms, so pointer equality is used
  as term equality throughout.  That this is right is itself a property (C32)
  proved of a model with explicit addresses (`Store.v`).  All other files use
  structural terms (`Term.v`) in which a symbol is identified by a number
  standing for its address.
* If the full statement of a property is false of the faithful model, the
  negation is proved as `..._refuted` with a concrete witness, evaluated by
  `vm_compute`, and the largest true part we could prove stands beside it.

## 2. Files

| model | contents | source |
|---|---|---|
| `Base.v` | outcomes, u32, bounds-checked access | base/check.h |
| `Kind.v`, `Arity.v` | kinds, attributes, `checkArity` | kind.*, attr.*, type_checker.cpp 147-220 |
| `Ints.v` | Integer, BitVector, Rational | util/integer.*, util/bitvector.*, util/rational.* |
| `Str.v` | String | util/string.* |
| `Literal.v` | literal values, `Literal::evaluate`, printing | literal.*, type_checker.cpp |
| `Union.v` | literal storage with the active union member | literal.*, state.cpp 922-988 |
| `Term.v` | terms, flags, free parameters | expr.* |
| `Match.v` | matching, program case selection | type_checker.cpp 424-515, 866-941 |
| `Eval.v` | the evaluation machine | type_checker.cpp 518-852 |
| `ListOps.v` | list operators | type_checker.cpp 959-1709 |
| `Typing.v` | types, literal operators on terms | type_checker.cpp |
| `Build.v` | `mkExpr`: desugaring, overloads, lambdas, program calls | state.cpp 600-1232, 1772-1819 |
| `Scope.v` | symbol tables, scopes, overloads, settings | state.cpp 199-262, 1251-1300, 1751-1770 |
| `Store.v` | sharing with addresses, tries, reference counts, hash numbers, bound variables | state.cpp, expr_trie.*, expr.* |
| `Lexer.v` | input buffer, characters to tokens | lexer.*, input.* |
| `Parse.v` | expression parser | expr_parser.* |
| `Cache.v` | the cache of types | type_checker.cpp 91-145, state.cpp 427-431, 604-627, 1654-1662 |
| `Main.v` | command line and main | main.cpp 21-207 |
| `Print.v` | printing of terms, words of kinds and symbols | expr.cpp 203-445, kind.cpp |
| `Check.v` | commands, steps, inclusion of files, verdict | cmd_parser.*, state.cpp, main.cpp |

`Spec*.v` are the specifications, `*Proofs*.v` the lemmas, `Prop*.v` the property
theorems.

## 3. Properties

For each property: what is modelled, how it is proved, and why it is partial if
it is.  The wording of the properties is in `properties.jsonl`.

* **C01 Euclidean law for eo::zdiv / eo::zmod on numerals** (proved).  `Ints.v` (euclidianQR).  Arithmetic, from the law of floor division.
  Theorems: `C01_zdiv_zmod_euclid`.
* **C02 eo::zdiv is floor division (manual)** (partial).  False: -7 or 7 divided by a negative numeral rounds the other way than floor (witness 7 / -2).  Floor holds for positive divisors.
  Theorems: `C02_zdiv_floor_refuted`, `C02_zdiv_floor_partial`.
* **C03 Bit-vector literals stay well formed** (proved).  `Literal.v`.  The invariant (0 <= value < 2^width) is preserved by every operator, for all inputs; also for tokens.
  Theorems: `C03_literals_stay_wf`, `C03_tokens_wf`.
* **C04 Meaning of bitwise and modular operators** (proved).  `Ints.v`.  Bitwise theory of `Z`; division and remainder by cases on zero.
  Theorems: `C04_bv_nary`, `C04_bv_unary`, `C04_bv_divmod`, `C04_bv_widths_differ`.
* **C05 Bit-vector concat and extract are inverse slices** (proved).  `Ints.v`.  Extensionality on bits.
  Theorems: `C05_concat_bits`, `C05_extract_bits`, `C05_extract_above`, `C05_extract_empty`, `C05_split_concat`, `C05_concat_split`.
* **C06 Bit-vector extract never reads past the top bit** (partial).  False for one index: extracting with the upper index equal to the width is accepted (witness `(eo::extract #b101 0 3)`); this is the only index (second witness theorem), and the result never has bits past the value.
  Theorems: `C06_extract_past_top_refuted`, `C06_extract_only_past_top_refuted`, `C06_extract_not_wider_partial`.
* **C07 Width of a concatenation** (partial).  False at width 2^32 (the width is reduced modulo 2^32); holds when the sum of the widths stays below 2^32.
  Theorems: `C07_concat_width_refuted`, `C07_concat_width_partial`.
* **C08 String literal text round-trips** (proved).  `Str.v`.  Induction over the code points, one lemma for each printed shape.  C08_printed (PropPrinted.v) says how each character is written, with the escape sequences of SpecString.v; it was added after a mutant that printed DEL as it is survived.
  Theorems: `C08_string_text_roundtrip`, `C08_printed`.
* **C09 String operators mean what the manual says** (proved).  `Str.v`, `Literal.v`.  Against list operations (append, length, first occurrence, slice).
  Theorems: `C09_concat`, `C09_length`, `C09_find`, `C09_extract`.
* **C10 String literal characters are never lost** (partial).  False: a byte outside the printable range and not part of an escape is dropped (witness: tab).  Holds for printable bodies.
  Theorems: `C10_chars_lost_refuted`, `C10_chars_kept_partial`.
* **C11 Rational arithmetic is exact and canonical** (proved).  `Ints.v`.  Canonical pairs against `Q` of the standard library.
  Theorems: `C11_rat_nary`, `C11_rat_div`, `C11_num_div`, `C11_rat_unary`, `C11_rat_gt`, `C11_equal_values_same_literal`.
* **C12 Conversions invert each other** (proved).  `Literal.v`.  Direct computation for each pair of conversions.
  Theorems: `C12_to_z_to_q`, `C12_code_points`, `C12_to_bin`, `C12_bin_roundtrip`, `C12_to_bin_of_bv`, `C12_identities`.
* **C13 eo::to_str of a numeral that is not a code point** (partial).  False: `(eo::to_str -1)` yields a string (`C13_to_str_out_of_range_refuted`).  What holds instead is `C13_to_str_partial`: a numeral that is a code point gives the string of this character, every other numeral a string of digits and a sign which is read back as this numeral.
  Theorems: `C13_to_str_out_of_range_refuted`, `C13_to_str_partial`.
* **C14 Literal evaluation is memory safe on accepted arities** (partial).  False: extract on a bit-vector or string with two arguments reads past the end of the vector of arguments (an arity that `checkArity` accepts).  Every other operator at every accepted arity is safe.
  Theorems: `C14_arity_safe_refuted`, `C14_arity_safe_partial`.
* **C15 Result category of literal operators** (proved).  `Literal.v`.  Case analysis on operator and literal kinds.
  Theorems: `C15_result_category`, `C15_mixed_never_evaluates`, `C15_domain`.
* **C16 Printed literals can be read back** (partial).  False: hexadecimal printing drops leading zeros, the empty bit-vector prints as `#b`, which is not a literal.  Proved for numerals, rationals, non-empty binary, booleans and strings that print.
  Theorems: `C16_hex_print_refuted`, `C16_empty_bin_print_refuted`, `C16_print_read_partial`.
* **C17 Ground and evaluatable flags are exact** (proved).  `Term.v`.  The iterative flag computation on a graph with an arbitrary set of nodes computed before; invariant of the worklist.  C17_operators (PropOperators.v) names the operators by the list of the manual instead of the function of the model.
  Theorems: `C17_flags_exact`, `C17_operators`.
* **C18 Pattern matching is sound, complete and most general** (proved).  `Match.v`.  Worklist invariant; completeness for patterns without the wildcard type.
  Theorems: `C18_match_total`, `C18_match_sound`, `C18_match_complete`, `C18_instance_unique`.
* **C19 Programs use the first matching case** (proved).  `Match.v`.  Induction on the cases.
  Theorems: `C19_first_case`, `C19_stuck_arguments`.
* **C20 The evaluator computes the recursive semantics** (proved).  `Eval.v`.  The stack machine (frames, visited maps, result trie) against an inductive big-step semantics (`SpecEval.ev`) without any of these: soundness, completeness and totality of outcomes.  Parameters: the operators (`lop`, any function preserving well-formedness) and the programs. C20_run_exact (PropRunEnv.v) is the same for the evaluator of any state that a run reaches.
  Theorems: `C20_evaluate_exact`, `C20_outcomes`, `C20_unique`, `C20_substitution`, `C20_program_call`, `C20_run_exact`.
* **C21 A program call is evaluated to the end** (partial).  False: a right hand side without parameters is returned unevaluated (witness program).  True for programs each of whose right hand sides has nothing to compute or contains a parameter.
  Theorems: `C21_program_to_the_end_refuted`, `C21_program_to_the_end_partial`.
* **C22 eo::ite only evaluates the selected branch** (proved).  Consequences of C20, with a non-terminating other branch in the example.
  Theorems: `C22_ite_lazy`, `C22_ite_stuck`.
* **C23 Equality tests and requirements** (proved).  `Typing.v`.  Case analysis against the specification.
  Theorems: `C23_eq`, `C23_is_eq`, `C23_is_ok`, `C23_requires`.
* **C24 List operators on right-associative lists** (proved).  `ListOps.v`.  Induction on lists through the encoding of a list as a nested application.
  Theorems: `C24_length`, `C24_cons`, `C24_concat`, `C24_nth`, `C24_find`, `C24_rev`, `C24_singleton_elim`, `C24_not_a_list`.
* **C25 Erase, set-of, difference, intersection** (proved).  As C24.
  Theorems: `C25_erase`, `C25_erase_all`, `C25_setof`, `C25_diff`, `C25_inter`.
* **C26 Multiset inclusion and equality** (proved).  As C24, with multisets as counting functions.
  Theorems: `C26_minclude`, `C26_meq`, `C26_meq_both_inclusions`.
* **C27 Left-associative lists behave analogously** (partial).  False for concat, rev and others on left-associative lists (witnesses).  The part that agrees with right lists is proved and what rev and concat compute is characterised exactly.
  Theorems: `C27_left_lists_refuted`, `C27_left_lists_partial`, `C27_rev_is_identity`, `C27_concat_reverses_second`.
* **C28 Desugaring of variadic applications** (partial).  `Build.v`.  Index loops against folds.  False for one argument: a right-associative or chainable operator applied to one argument gives an application to that one argument and `and` of nothing, respectively (witnesses), characterised exactly beside them.
  Theorems: `C28_right_assoc_nil`, `C28_left_assoc_nil`, `C28_non_singleton_many`, `C28_non_singleton_few`, `C28_non_singleton_one`, `C28_right_assoc`, `C28_left_assoc`, `C28_chainable`, `C28_pairwise`, `C28_arg_list`, `C28_plain`, `C28_higher_order`, `C28_right_assoc_one_argument_refuted`, `C28_assoc_one_argument`, `C28_chainable_one_argument_refuted`, `C28_combine_one_argument`.
* **C29 Desugared lists are read back by the list operators** (partial).  `Build.v` with `ListOps.v`.  False for left-associative lists and for parameterized nil terms (witnesses).
  Theorems: `C29_read_back`, `C29_injective`, `C29_left_read_back_refuted`, `C29_parameterized_nil_refuted`.
* **C30 eo::hash is injective and stable** (proved).  `Store.v`.  Invariant over all histories of requests.
  Theorems: `C30_hash`, `C30_compare_irreflexive`, `C30_compare_total`, `C30_compare_transitive`, `C30_compare_stable`, `C30_compare_hash`.
* **C31 Variables are determined by name and type** (partial).  False for names with escape sequences that print alike (witness).  For ground types the pair of name and type determines the variable; others stay operator applications.
  Theorems: `C31_ground`, `C31_not_ground`, `C31_escaped_name_refuted`, `C31_var_operator`.
* **C32 Structural sharing: same term iff same object** (proved).  `Store.v`.  Invariant over all histories of creations, deletions and requests: two applications that are alive are the same object iff kind and children are; without deletion of shared terms.
  Theorems: `C32_applications_differ`, `C32_same_application`, `C32_without_deletion`, `C32_literals`, `C32_symbols`, `C32_equal_terms`, `C32_stable`.
* **C33 Deleting a term does not disturb other terms** (partial).  False: deleting an application whose trie entry is an inner node of another one's path removes the other (witness); true when no key is a proper prefix of another; what is lost is characterised exactly.
  Theorems: `C33_refuted`, `C33_partial`, `C33_lost`, `C33_two_objects_refuted`.
* **C34 Deleting a term is memory safe** (partial).  False: deletion dereferences a missing trie entry (witnesses).  It is safe iff the entry exists; requests without deletion are always served.
  Theorems: `C34_refuted`, `C34_missing_entry_refuted`, `C34_safe_iff`, `C34_requests_served`.
* **C35 Leaving a scope restores the symbol table** (partial).  `Scope.v`.  The tables refine a stack of declaration lists.  False for proof rules (separate table) and for the marks of overloaded terms (witnesses).
  Theorems: `C35_names`, `C35_restores`, `C35_accepted`, `C35_no_ub`, `C35_rules_refuted`, `C35_marks_refuted`.
* **C36 reset forgets everything declared before** (partial).  False: overload alternatives and rules survive reset (witnesses); a complete run in which a locally assumed `false` is proved after a reset is `C36_run_refuted`.  True when no name is overloaded and without rules.
  Theorems: `C36_no_names`, `C36_alternatives_refuted`, `C36_meaning_refuted`, `C36_rules_refuted`, `C36_partial`, `C36_run_refuted`.
* **C37 Overload resolution order** (partial).  False: the last alternative that type checks is chosen, not the first (witness); `eo::as`/`as` select by return type; not for unapplied constants (witness).
  Theorems: `C37_first_alternative_refuted`, `C37_last_alternative_partial`, `C37_as`, `C37_as_constant_refuted`, `C37_unapplied_refuted`.
* **C38 Checked proofs are sound** (partial).  Full statement: for every interpretation of formulas, if all accepted steps are valid inferences then every conclusion outside of assume-push is entailed by the assumptions.  False: a program declared outside and defined inside of an assume-push with the local assumption as its right hand side exports it (`C38_refuted`, a complete run with verdict correct that concludes false from nothing).  True (`C38_sound_partial`) for every run, interpretation and rule set when nothing that outlives its assume-push mentions a proof: the types, attributes, program right hand sides and literal types declared inside of an assume-push have no proof in them, the formulas assumed or derived are ground and evaluated, and there is no push, pop or reset.  Invariant over all commands: every term that can be named, looked up or computed contains only proofs of formulas entailed by the open assumptions of its level (`ClosureProofs.v`, `InvProofs.v`, `SoundProofs.v`).
  Theorems: `C38_refuted`, `C38_sound_partial`.
* **C39 Soundness in the presence of push and pop** (partial).  False: step-pop leaves the scope opened by a push instead of that of the assume-push, so the local assumption stays visible (complete run).  True part, `C39_nested_partial`: with the hypotheses of `C38_sound_partial`, but with push and pop allowed, provided that every pop ends a scope of push and every step-pop one of assume-push (`well_nested`, a condition on the log of events).  The invariant of the proof gives each open scope the set of formulas that follow from the assumptions of the scopes up to it; `C38_sound_partial` is a corollary.
  Theorems: `C39_refuted`, `C39_nested_partial`.
* **C40 Every assumption used is a reference assertion** (partial).  False inside an assume-push, where nothing is compared (complete run).  Proved for assume at level 0 while the file begun last is a reference, without normal forms (`C40_reference_partial`) and with them (`C40_normalized_partial`: the normal forms of the assumed formula and of a formula asserted before are the same); invariants over all runs (`CheckProofs2.v`, `RefProofs.v`).  `C40_accepts`: State::addAssumption accepts exactly the asserted formulas in that situation.  The state in which a normal form is computed is given by the log but for the overloaded names (`state_at`).
  Theorems: `C40_reference_partial`, `C40_refuted`, `C40_normalized_partial`, `C40_accepts`.
* **C41 Reference checking stays enabled** (partial).  False: `includeFile` overwrites `d_hasReference` with every file begun, so the main file switches off checking after `--reference`, and an include after a reference command does too (complete runs).  Proved: without command line inclusions no reference begins while the file begun last is one.
  Theorems: `C41_one_reference_partial`, `C41_command_line_refuted`, `C41_include_refuted`, `C41_second_refuted`.
* **C42 Verdict** (partial).  Proved for all runs: the verdict is incomplete iff a used rule is marked :sorry (also for steps whose acceptance came before the mark), and at the end of a file nothing is open.  False for standard input, which may end inside an assume-push.
  Theorems: `C42_verdict`, `C42_closed`, `C42_stdin_refuted`.
* **C43 A step proves what it says** (proved).  Proved for all runs: step-pop discharges the innermost open assumption; a stated conclusion is the conclusion; the name is bound to the proof; the rule was declared before (`C43_declared`).  `C43_concludes`, for every step of every run without reset: the inputs of the rule (arguments, conclusion to be stated, discharged assumption, premises or the formula gathered from them by :premise-list) select a case of the rule's program and the conclusion is the value of its right hand side by the relation of C15, with nothing left to compute.  It relies on invariants of all commands proved in `InvProofs.v` and `StepProofs.v` (everything nameable is well formed, attributes are those of the log).  That rules and programs are stored in the form the theorem speaks of is C64.
  Theorems: `C43_discharges`, `C43_stated`, `C43_binds`, `C43_declared`, `C43_concludes`.
* **C44 Every byte of the input file is read** (partial).  False: byte 0xFF is taken for the end of a file (witness).  True for files without that byte; standard input is read completely.
  Theorems: `C44_partial`, `C44_stdin`, `C44_refuted`.
* **C45 Buffering is invisible** (proved).  `Lexer.v`.  The buffer with refills against the plain sequence of bytes, for every buffer size and every way in which the stream delivers bytes.
  Theorems: `C45_characters`, `C45_stdin`, `C45_file_or_stdin`.
* **C46 Symbols and string literals survive lexing** (partial).  `Lexer.v` against a lexical grammar (`SpecLex.v`): the tokens of a text are those of the grammar, layout is ignored, symbols and strings are read completely.  False for keywords that contain a colon inside and for the NUL byte (witnesses).
  Theorems: `C46_tokens`, `C46_layout_ignored`, `C46_symbol`, `C46_symbol_name`, `C46_string`, `C46_keyword_refuted`, `C46_nul_refuted`.
* **C47 Single-use attributes** (proved).  `Scope.v`.  Invariant over request sequences: the first setting wins, a different second one is refused.
  Theorems: `C47_one_rule`, `C47_conflict`, `C47_one_attribute`, `C47_refused`, `C47_first`.
* **C48 Accepted rules and programs leave no parameter behind** (proved).  `Match.v`, `Typing.v`.  `typeCheckProgramPair` accepts iff the free parameters of the right hand side occur in the patterns; instances of accepted cases are ground.
  Theorems: `C48_accepted_case_ground`, `C48_check_exact`.
* **C49 Including a file twice is the same as including it once** (proved).  Proved for all runs: no canonical path is begun twice; including a path that was begun succeeds and leaves the state as it is.  Canonicalisation of paths is a parameter of the model (`g_path`).
  Theorems: `C49_once`, `C49_repeat`.
* **C50 Free parameter computation** (proved).  `Term.v`.  Worklists against the inductive notion of occurrence.
  Theorems: `C50_getVariables`, `C50_hasVariable`.
* **C51 Literal storage is read as it was written** (partial).  False: `eo::add` of numerals writes and reads different union members (witness); true of operators that do not go through the rational accumulator.
  Theorems: `C51_union_member_refuted`, `C51_union_member_partial`.
* **C52 Boolean and integer operators compute the mathematical result** (proved).  `Literal.v`.  Direct.
  Theorems: `C52_bool_operators`, `C52_num_operators`, `C52_num_gt`, `C52_bv_gt`.
* **C53 List operators evaluate only on values** (partial).  False: list operators evaluate although an argument contains a stuck application (witness).  What holds is `C53_list_operators_partial`: the arguments contain no parameters, and the first one is an operator (or an instance of one) declared with a nil terminator.
  Theorems: `C53_list_operators_on_values_refuted`, `C53_list_operators_partial`.
* **C54 A term in use is never freed** (proved).  `Store.v`.  Reference counts against the number of references, over all histories.
  Theorems: `C54_in_use`.
* **C55 A term not in use is freed** (partial).  False: the counts of arguments kept by the hash table are never released (witness); what is kept is characterised; partial for the rest.
  Theorems: `C55_refuted`, `C55_arguments_kept`, `C55_partial`.
* **C56 eo::hash and eo::cmp do not depend on memory management** (partial).  False: hash numbers depend on when terms are created and deleted (witnesses).  What holds is `C56_partial` (two answers of eo::hash about terms that are still in use are equal iff the terms are) and `C56_order_partial` (answers of eo::cmp about terms still in use do not change).
  Theorems: `C56_hash_refuted`, `C56_order_refuted`, `C56_partial`, `C56_order_partial`.
* **C57 The alternatives of a name were declared with that name** (partial).  False for terms with two names (witness); true when each term has one name.
  Theorems: `C57_partial`, `C57_refuted`.
* **C58 A checked refutation refutes its reference** (partial).  Composition of C39 and C40: `C58_refutation_partial` under their hypotheses; false in general (`C58_refuted`: after another include the assumptions are not compared with the reference).
  Theorems: `C58_refutation_partial`, `C58_refuted`.
* **C59 Applying a macro substitutes simultaneously** (proved).  `binds` (SpecBuild.v) says what a variable list stands for, `ev` (C20) what evaluating the body means.  `C59_value` is an equivalence: some bound gives r exactly if r is the value of the body; `C59_substitution` (bodies without anything to compute) holds for every large enough bound; `C59_other_arity`.  That results do not depend on the bound is shown in MonoProofs.v.  Assumed: the environment holds well-formed terms only (`env_wf`, shown for every reachable state in StepProofs.v).
  Theorems: `C59_value`, `C59_substitution`, `C59_other_arity`.
* **C60 Operators with any number of arguments** (proved).  `C60_left` (the law f(cs, c) = f(f(cs), c)), `C60_operators` (which operators), `C60_values` (closed forms).
  Theorems: `C60_left`, `C60_operators`, `C60_values`.
* **C61 Opaque arguments** (proved).  `one_by_one` (SpecBuild.v) describes the chain of applications; `C61_opaque`, `C61_fewer`.
  Theorems: `C61_opaque`, `C61_fewer`.
* **C62 Applications of programs and rules** (proved).  `calls` and `ev` are the specification of C20; `C62_program` is an equivalence (some bound gives r exactly if ...), `C62_program_arity`, `C62_rule`.
  Theorems: `C62_program`, `C62_program_arity`, `C62_rule`.
* **C63 The type checker implements the typing rules** (proved).  The typing rules are the inductive relation `has_type` of SpecType.v, with the table `op_signature` for the eo:: operators and `ev` (C20) for evaluation; matching is `fits`: one substitution for all arguments that has values for the parameters of the argument types only.  `C63_exact`, `C63_unique`, `C63_bound` (any larger bound gives the same type), `C63_untyped`, `C63_function` (functions without parameters in their type).  The proof relates the matching loop with its shared visited pairs to instances (`matchv_sound`, `matchv_complete`).  Not covered: outcomes that are neither a type nor 'no type' (undefined behaviour on malformed nodes such as an application node without children). PropRunEnv.v: C63_run shows that the environment of every state that a run without reset reaches is well-formed and has the programs that were declared (from the invariant of C38), so that the hypotheses of C59, C62, C63 and C83 hold in every run; variables_wf says that variables have well-formed types, which is a condition on the numbering of variables in the model.
  Theorems: `C63_exact`, `C63_unique`, `C63_bound`, `C63_function`, `C63_untyped`, `C63_run`, `C63_run_exact`, `C63_run_read`.
* **C64 A step follows the declaration of its rule** (partial).  `RuleProofs.v`.  The log has an event with the parts of every declare-rule command as they were read.  Invariant `known` (`InvProofs.v`): every attribute of a rule symbol comes from such an event, its program has one case whose patterns are those of the declaration and whose right hand side is the conclusion under a chain of eo::requires, and has not been touched since (a program is defined once; a deleted symbol's entry goes away with it).  `chain_ev` unfolds the chain by the evaluation relation of C15.  `C64_nullary_refuted`: a rule without patterns whose conclusion is a function, used with :args, concludes the function applied to the arguments (state.cpp 1397-1582 applies whatever is stored), so the side condition cannot be dropped.
  Theorems: `C64_follows_declaration`, `C64_nullary_refuted`.
* **C65 Only formulas are assumed and concluded** (proved).  `BoolProofs.v`: the type check of `parseFormula` and of the step command, transported through C63 to the typing rules, in the state pinned by the log (`state_at`).  The `=` formulas that define-fun puts into a reference file are not type checked by the code and not covered.
  Theorems: `C65_assumed`, `C65_concluded`.
* **C66 Terms are read by the recursive grammar** (proved).  `Parse.v` (parseExpr and everything it calls) with `Lexer.v`.  `SpecRead.v` gives the grammar as a mutually inductive relation between a state, an S-expression, a term and the state after it, with one rule for each form.  Both directions: a reading makes the parser return it (induction over the derivation; the stack machine pushes and pops what the rule says) and a result of the parser has a reading (induction over the S-expression, using the first direction for the parts).  Assumptions: the words in the input form an S-expression (no word of it the end of the file; nested less than 2^64 deep, the counter of parseSymbolicExpr is a size_t), at most one word, or an opening parenthesis and a word, have been put back before; variables have the name and type they were made with (`faithful`; `Encode.v` has a numbering that does).  Applications are built by `mkExpr` (C28, C59 to C62 say what it does).  An application whose value is the null term is skipped, as in the code.
  Theorems: `C66_reads`, `C66_exact`.
* **C67 Names bound inside a term are local, and let is an abbreviation** (proved).  `C67_names_kept` is about every S-expression the parser accepts (C66) in the final state of any run without reset; it follows from the relation between the tables and a stack of declaration lists (C35), which every rule of the reading relation keeps.  `C67_static` uses the relation `means` of SpecLocal.v: a name table that is extended at binders and passed down, never back, with a fixed environment of attributes and alternatives.  `C67_abbreviation` is about `means` on both sides; its side conditions exclude capture (a name in both the value and the body must mean something outside) and writing a list in the place of the operator of an application.  The converse of the abbreviation (the expanded form is accepted only if the let is) is not proved.
  Theorems: `C67_names_kept`, `C67_static`, `C67_abbreviation`.
* **C68 A name bound inside a term hides the outer one, without lasting effect** (partial).  False of the model, and found while trying to drop the hypothesis of C67 that bound names are new: State::bind treats a second binding of a name as an overload and marks the *term* as overloaded under that name (state.cpp 1268-1290).  `C68_hides_refuted`: after declaring f : Int -> Int and g : Bool -> Bool, `(let ((f g)) (f a))` is the outer f applied to a, and `(let ((f g)) (g a))` is f applied to a as well.  `C68_lasting_refuted`: the mark is not removed with the scope; if f is declared once more, `(g a)` then is the new f applied to a, while without the let it is g applied to a.  The true parts: C67 for new names, and for names in use `C68_inside_partial` (in the scope the name stands for its value, other names, all types and values and the alternatives of terms that were not declared under that name are as outside) and `C68_applied_partial` (a let that binds any name, in use or not, to a function without alternatives and applies it to words where that is well typed is that function applied to those words; `C68_applied_example` is `(let ((f g)) (f p))` with f declared outside).  What is missing cannot be proved: it is refuted.
  Theorems: `C68_hides_refuted`, `C68_lasting_refuted`, `C68_inside_partial`, `C68_applied_partial`.
* **C69 Each command does exactly what its grammar says** (proved).  `Check.v` (all commands) with `Parse.v` and `Lexer.v`.  `SpecCmd.v` gives each command as a rule of the relation `does` between a state, the items of the command and the state after it; terms inside commands are read by the relation of C66.  Both directions are proved by a small theory of parsers as relations (`CmdProofs.v`): `parses m R` says that the result of the parser m on input whose words are those of S-expressions is related by R, and conversely that what R relates is returned (or the fuel runs out).  Each combinator of the parser monad has a rule, and CmdProofs2 to CmdProofs11 go through the parser functions one by one.  Still written with functions of the model, because other properties say what they do: `applied` (mkExpr, C28 and C59 to C62), `of_type` (C18, C65), `bind_sym` and the tables of scopes (C35), `notifyStep` (C43, C64), `typeCheckProgramPair` (C33), `isGround`/`getVariables`.  Assumptions: `well_formed` (C66; set-info and set-option have a value, see C71), files consist of such lists, `faithful` (C66).  An included file that is not balanced but never reached is excluded by the assumption although harmless.
  Theorems: `C69_exact`, `C69_accepts`.
* **C70 A run is the sequence of the commands of its files** (proved).  `script` (commands one after the other), `included_in n` (inclusions at most n deep: n is the fuel of `includeFile`) and `runs` in `SpecRun.v`; `C70_exact` and `C70_accepts` are the two directions for `Check.run`.  The text of standard input is assumed to be balanced in both modes of let.
  Theorems: `C70_exact`, `C70_accepts`.
* **C71 A command is one list** (partial).  False of the model: `C71_one_list_refuted`.  parseSymbolicExpr does not test for the closing parenthesis it starts at: the counter of open parentheses goes from 0 to 2^64-1 and is 0 again after the next opening parenthesis (expr_parser.cpp, the size_t counter).  So `(set-info :status) ()` is read as one command.  `C71_one_list_partial`: every other command consumes exactly the words of its list; with a value so do these two (C69).
  Theorems: `C71_one_list_refuted`, `C71_one_list_partial`.
* **C72 Declared datatypes are defined and named** (partial).  False of the model, twice.  `C72_defined_refuted`: parseDatatypesDef compares the number of declared types (known in advance for declare-datatypes) with the number of names, not the number of definitions; `(declare-datatypes ((A 0) (B 0)) (((a))))` is accepted and B is a type constant without constructors.  `C72_bound_refuted`: for a single parametric datatype the constant is made and bound after the scope of the parameters was entered, and leaving this scope unbinds it; after `(declare-datatype D (par (X) ((mk (get X)))))` the name D is unknown while mk is known.  The part that holds (SpecData.v, DataProofs.v, PropData.v): `C72_datatypes_partial`, when a state that a run reaches accepts a declare-datatypes with as many definitions as names, there are symbols with the names, each with attribute datatype and the list of the constructors written in its definition, in order, each constructor with the list of its selectors, and every name that the command declares only once stands for its symbol (also with par); `C72_datatype_partial`, the same for declare-datatype without par.  Hypothesis besides the two refuted cases: eo::List::cons is not overloaded (the lists of constructors are built by mkExpr with this symbol).
  Theorems: `C72_defined_refuted`, `C72_bound_refuted`, `C72_datatypes_partial`, `C72_datatype_partial`.
* **C73 Names are printed so that they are read back** (partial).  `Print.v` (quoteSymbol, kindToTerm, against the scanner of `Lexer.v`).  `C73_names` and `C73_kinds` give the words; `C73_read_back` says exactly which names the scanner and parser get back from the printed word; `C73_operators` that the word of every operator is bound to it in the initial state.  False for all names: `C73_every_name_refuted` (|-5| is printed as the number -5, |let| as the reserved word, a backslash or a bar as an underscore, and names that start with eo:: are never quoted), `C73_every_name_distinct_refuted` (names that differ in a backslash are printed alike).
  Theorems: `C73_names`, `C73_kinds`, `C73_read_back`, `C73_distinct`, `C73_operators`, `C73_every_operator`, `C73_every_name_refuted`, `C73_every_name_distinct_refuted`.
* **C74 Terms are printed as they are built** (proved).  `Print.v` (the loop of printDebugInternal, with its explicit stack) against the recursive account of `SpecPrint.v`: the text is that of the account and is found whenever the account has one; conversely what is printed has an account, unless the term contains a compound term of the kind of variables, which nothing builds.
  Theorems: `C74_text`, `C74_only`, `C74_one_text`.
* **C75 Shared terms are printed once** (partial).  `Print.v` (computeLetBinding: post-order with a stack, a set and counts; printDebug).  The proof follows the counts: a term is counted once for each parent that is visited, parents are visited once, so the counts are the occurrences among the parts of the different compound terms.  Since a named term is written out in its definition only and another term has one parent occurrence, everything is written out once.  Expansion needs that no word of the term is one of the generated names: `C75_expansion_refuted` with a constant called _v0, where the definition captures it.
  Theorems: `C75_shared`, `C75_expansion_refuted`.
* **C76 Printed terms are read back** (partial).  `Print.v`, `Lexer.v`, `Parse.v`.  `SpecBack.v` says which terms are ordinary: symbols bound under their names, literals whose text is read as themselves, `(f a)` for f without attributes, `(_ f a)`, function types, `(eo::var "x" T)` and operator applications that the term builder leaves as they are.  `C76_read_back` goes from the writing of C74 and C75 over the scanner (C46, C73) to the meaning by static scoping (C67); a definition `(eo::define ((_v0 t)) ...)` binds exactly the name that the rest uses.  The claim for all terms is false (`C76_every_term_refuted`): the most common case is an n-ary operator with a neutral element, whose partial application `(and p)` is read as `(and p true)`, so that no conjunction is read back; further witnesses are applied variables, constants with two opaque arguments and strings with quotes.
  Theorems: `C76_read_back`, `C76_every_term_refuted`.
* **C77 The command line means what it says** (partial).  `Main.v` models the loop over the arguments and what follows in main; `SpecMain.v` describes items without the order of the tests in the loop.  `C77_items`: the description is unambiguous; `C77_run`, `C77_stops` together determine the result of every command line in terms of `Check.run` (C70).  `C77_unrecognized`: a misspelt option is taken for the name of the input file, so there is no answer unless such a file exists; that it is refused in any case is false (`C77_refuses_refuted`).  Not modelled: the texts displayed, the options that concern statistics and printing, trace channels (`tracing` says whether they are compiled in).
  Theorems: `C77_items`, `C77_run`, `C77_stops`, `C77_unrecognized`, `C77_undefined`, `C77_refuses_refuted`.
* **C78 Types do not depend on what was asked before** (partial).  `Cache.v` models the loop of getType with its stack, its set of visited terms and the map of types, with all lookups as in the code; calls of getType that evaluate makes on the way are a parameter (they leave a cache of the same sort).  `SpecCache.v`: `has_answer` is the type checker without cache, `arises` the caches of any sequence of calls and deletions.  `C78_right`: what is delivered is the computed type.  `C78_found`: what can be computed is delivered (no lookup of a missing entry), if the types of the parts of the term quote only symbols, which is all that can be written (eo::quote takes a parameter).  Full statement: also across declarations.  False: `C78_later_refuted`; a program may be declared first and defined later, the type of a constant may be `(eo::ite (eo::is_ok ($h x)) Int Bool)`, and then the type of (g 1) asked for before the definition is Bool and stays Bool while (g 1) is in use, although it is computed as Int afterwards.  `Check.run` recomputes.
  Theorems: `C78_right`, `C78_found`, `C78_later_refuted`.
* **C79 Declarations do not change existing symbols** (proved).  `SpecSym.v`: `old s t` says that t is not a symbol that is still to be made, `symbols_kept s s'` that names, types and set attributes of old symbols are the same.  `C79_command` for every command in every state, `C79_file` for files with their inclusions, `C79_start` for runs; `C79_made_once`: in the log of a run every symbol is made once, is old and has the type it was made with.  All by one induction over the methods of the parser with a relation that every primitive change of the state satisfies (`SymProofs.v`).  Symbols are numbers that are never used again; the code frees symbols that are not referenced and may use their address again (C30 to C32 and C56 are about this).
  Theorems: `C79_command`, `C79_file`, `C79_made_once`, `C79_start`.
* **C80 Types and values do not depend on names** (proved).  `SpecEnv.v`: two environments of the type checker agree except for alternatives (a symbol without an entry and one whose entry holds alternatives only count as equal).  `C80_names`: for any two states that differ in the tables of names only, getType, evaluateLiteralOpInternal and evaluate give the same result on everything, including running out of fuel and undefined behaviour.  Proof: by induction on the depth of calls; each function of Typing.v, Eval.v and Match.v is compared with itself, and monotonicity (MonoProofs.v) is used in both directions.  `C80_reading` is the instance for reading a term (with C66).  `C80_names_example` shows that building a term does depend on alternatives.
  Theorems: `C80_names`, `C80_reading`.
* **C81 Types and values depend only on what a term is made of** (proved).  `SpecMade.v`: a term is made of a set of symbols if its symbols are in the set and so are those of the types of its bound variables; a set is closed if the types and attributes of its members are made of it; two environments agree on it.  `C81_local`: on a closed set where they agree getType and evaluate give the same result (also for undefined behaviour and running out of fuel; MadeProofs.v proves that types, values, matches and programs stay inside a closed set, AgreeProofs.v the agreement by induction on the depth of calls).  `C81_command` and `C81_file`: in a state reached without reset the set of all existing symbols is closed (C82) and commands keep what is known about them (C79), except for what `leaves` of `SpecUsed.v` excludes: giving an attribute to a term made of these symbols, and changing the type of a class of literals.  That symbols made by a command are not of the kind of bound variables is a condition in `leaves` too: the model of the parser makes them with other kinds, but the induction over commands does not record this.  `C81_conditions_needed`: a program that is declared first and defined later evaluates differently afterwards.
  Theorems: `C81_local`, `C81_command`, `C81_file`, `C81_conditions_needed`.
* **C82 Everything that can be named is made of symbols that exist** (proved).  `over` of `SpecUsed.v`: made of symbols with a number below the next free one.  `C82_closed` and `C82_read` (UsedProofs.v, UsedProofs2.v: an invariant of all commands, using MadeProofs2.v for mkExpr).  Precondition: `faithful`, bound variables know their name and type.  Numbers below 0 stand for the placeholder constants that eo::nil and `as` build; the statement does not exclude them.
  Theorems: `C82_closed`, `C82_read`.
* **C83 Evaluation keeps the types of terms** (partial).  Types are those of SpecType.v (C63), evaluation is that of SpecEval.v (C19, C63). SpecPreserve.v: `keeps` describes the terms covered, `typed_program` the programs (declared from closed types to a closed type; patterns built from constants, literals and parameters with the types of the arguments; right-hand sides that have the result type and again keep types; recursion, also mutual, is allowed because `good` may contain all the programs), `fixed_literals` excludes literal types that use eo::self, `suits` says that parameters have values of their types. C83_preserved_partial is proved by induction on the evaluation; matching gives the parameters of a pattern values of their types (`pattern_types`). C83_refuted has one witness for each of four conditions: bit-vector types with widths, division of bit-vectors, eo::ite with branches of different types, and a program whose right-hand side has another type than declared. The last one passes typeCheckProgramPair (C20): its parameter checkPreservation is never read in the code. Not covered: list operators, eo::var, eo::typeof, eo::dt_*, quoted arguments, programs with type parameters, lambda.
  Theorems: `C83_preserved_partial`, `C83_refuted`.
* **C84 Documented names mean what the manual says** (partial).  SpecNames.v has, written down from user_manual.md, the table of the documented operators, a relation `means` that gives the value of an operator on Booleans, numerals, rationals and strings without reference to the evaluator, the tables of attributes and categories of literals, and all examples of the manual. C84_operator: a list starting with the name is read exactly as the application of the operator to what its arguments are read as. C84_meaning, C84_meaning_only: applied to values it is read as the value `means` gives and nothing else. C84_manual runs the parser and the evaluator of the model on the 149 examples; C84_manual_refuted: seven do not hold (12/6 = 3/1; #b is no token, twice; \\u{9876} is hexadecimal; eo::to_str out of range, twice, see C13; eo::cons with the nil terminator). `original` says that the name is still bound as at the start: declaring it again is possible (C68).
  Theorems: `C84_operator`, `C84_arrow`, `C84_meaning`, `C84_meaning_only`, `C84_booleans`, `C84_attributes`, `C84_literals`, `C84_manual_refuted`.
* **C85 The derived definitions compute what the built-in operators compute** (partial).  SpecDerived.v writes down the macros and programs of the file, each for any distinct parameters, as a predicate `derived` on the table of programs; `both` says that two terms evaluate to the same value in the sense of SpecEval.v. The programs are followed by induction on the list (DerivedProofs.v, DerivedProofs2.v) and compared with C24 and C25; the relations erased, difference, ... are shown to determine their result. C85_names, C85_programs and C85_example read the file itself (DefinitionsText.v has its text) with the model and show that it leaves these programs and that the hypotheses hold for a list; C85_replaced compares 39 applications. The hypothesis lists_typed says that the lists that can come up have the type for which $eo_nil has its case. C85_left_refuted: on (lor a b) with a left associative lor, eo::list_len gives 2 and $eo_list_len is stuck. C85_gt_refuted: $eo_gt is stuck on bit-vectors. C85_minclude and C85_meq (SpecDerived2.v, DerivedProofs3.v, PropDerived2.v) follow $eo_list_minclude and $eo_list_meq, which first copy the lists into lists of the file; C85_is_var needs that eo::var makes variables and that a variable is the one that eo::var makes from its name and type (variables85). Not covered by the theorems: nil terminators with parameters.
  Theorems: `C85_is_list`, `C85_cons`, `C85_length`, `C85_concat`, `C85_nth`, `C85_nth_none`, `C85_find`, `C85_rev`, `C85_erase`, `C85_erase_all`, `C85_setof`, `C85_diff`, `C85_inter`, `C85_singleton_elim`, `C85_eq`, `C85_tests`, `C85_order`, `C85_gt_refuted`, `C85_left_refuted`, `C85_minclude`, `C85_meq`, `C85_is_var`.
* **C86 Built-in lists hold terms of any types** (partial).  SpecBuiltin.v writes down the declarations of the manual as a predicate on environments; C86_declared derives it for every run from C79. C86_typed is by induction on the list from the typing rules of C63 (the two applications in each cell), C86_read combines the grammar of C66 with C28. C86_example has a list of a constant, a function and a type. C86_manual_refuted: the examples of the manual write the constructors of a datatype as nested applications of eo::List::cons; read as input these are other terms, since the operator adds a terminator to each application (the text of the manual, which C86_datatypes follows, has it right).
  Theorems: `C86_declared`, `C86_typed`, `C86_read`, `C86_elements`, `C86_manual_refuted`.
* **C87 Bad input never leads to undefined behaviour** (partial).  The full statement is false: C87_refuted gives six inputs for which the run of the model ends in UB, because an operator applied to too few arguments is only refused when its type is asked for, which does not happen in a definition or in a program, because (->) and (as) are taken to have children, and because a closing parenthesis without an opening one takes a frame from an empty stack. What holds is C87_safe_partial: SpecSafe.v says how many children each kind of terms needs; if the terms of the environment and the given term have them, the type checker and the evaluator do not reach UB, whatever the bound on nested calls. The proof (SafeProofs.v) shows that everything the type checker, the operators and the evaluator make from such terms is such a term, and that every access to a vector in them is within its bounds for such terms; for the evaluator, that it behaves as with operators that report an error in place of UB, for which C20 excludes UB. C87_operator_partial is the same for operators called by the parser. C87_example has the length of a list of C83, and eo::eq and eo::extract with too few arguments. Not covered: safety of the parser and of the commands.
  Theorems: `C87_refuted`, `C87_safe_partial`, `C87_operator_partial`.
* **C88 A literal has the value that is written** (proved).  SpecNumber.v says what a sequence of digits is worth, independently of the code: the last digit has weight 1 and the others the base times their weight without it. The theorems are equivalences with the reading of words as literals (word_term of SpecRead.v, which C66 shows to be what the parser does), for every sign, number of digits and every combination of the normalization options; a value in lowest terms is determined, so the conclusions fix the literal. C88_string (SpecString.v, StringProofs.v) says which characters a string has, as a grammar of escape sequences that the scanner of string.cpp is shown to follow, also where it has to give up and keeps what it has read. Found missing by a mutation: a decimal ten times too small was accepted by all earlier theorems. That the lexer gives words of these forms the tokens in question is C46.
  Theorems: `C88_numeral`, `C88_decimal`, `C88_rational`, `C88_bits`, `C88_string`.
* **C89 The list operators obey the laws of lists and multisets** (proved).  The laws are stated on nested operator terms and the evaluation relation ev of SpecEval.v (which C20 relates to the evaluator): both sides evaluate to the same value, or the test evaluates to true. list_operator (SpecLaws.v) asks that the operator is a constant whose terminator does not depend on the list (a fixed :right-assoc-nil terminator; the operators with parameterised terminators are covered by C24-C26 one application at a time). The proofs compose the theorems of C24, C25 and C26, whose results are shown to be lists of values again, so that they are arguments of the next operator. C89_example gives the operator and lists and reads six such terms from text.
  Theorems: `C89_rev_rev`, `C89_concat_assoc`, `C89_rev_concat`, `C89_length_concat`, `C89_setof_setof`, `C89_setof_included`, `C89_diff_inter`, `C89_nth_find`, `C89_erase_all_concat`, `C89_find_erased`.
* **C90 The operators on literals obey the laws of arithmetic, bits and strings** (proved).  Stated like C89 on nested operator terms and the evaluation relation of SpecEval.v, with has_value and lit_wf of SpecLit.v as the only conditions on the literals (C03 shows that all literals that are read or computed are well-formed). AlgebraProofs.v collects, for each category of literals, closure and laws in two records (arithmetic, bitwise) and proves them from the values of the operators (C01, C04, C09, C11). The order of the operands matters only where it is written: the laws with a quotient use the Euclidean quotient of the code for numerals and the floor quotient, all ones for a zero divisor, for bit-vectors.
  Theorems: `C90_arithmetic`, `C90_bits`, `C90_division`, `C90_rational_division`, `C90_strings`, `C90_order`.

## 4. Trusted base

* The Coq kernel (8.16.1), `coqc` with `vm_compute`, and the standard library.
  No axiom is used (section 8): all theorems are closed under the global context.
* The reading of the C++ embodied in the model files (comments cite the lines).
* GMP, the C++ standard library and iostreams behave as documented.

## 5. Modelled and not modelled

Modelled: sections 2's table, i.e. the whole path from the bytes of the input
files and the arguments of the command line to the verdict.  `Check.run` is executable;
see section 6.

Simplifications, all noted at the definitions:

* Symbols are numbered in the order of their creation.  The numbers of
  `eo::hash` and the symbols of `eo::var` are functions given in the
  configuration of a run (`g_hash`, `g_bvar`, `g_varinfo`); that the program
  behaves like such functions is what C30 and C31 are about.
* The type of a compound term is recomputed instead of cached (`Cache.v` models
  the cache; C78 says when this is the same).  The implicit
  setting of the type rule of a literal kind to the wildcard at its first use is
  modelled in `Scope.v` (C47) but not in the pure type checker of `Typing.v`.
* Canonical paths are an abstract function of the current file and the path.
* Recursion depth and memory are unbounded; non-termination shows as `Fuel`.

Not modelled: plugins, statistics, traces, warnings, the texts of error messages, time.

Preconditions the code relies on appear as hypotheses or as `UB` outcomes:
vectors are accessed inside their bounds, `d_appData` entries exist where they are
dereferenced, an assume-push scope is open at step-pop, and so on.

## 6. Validation of the model

The model of the whole program was run (by `vm_compute`) on the regression inputs
listed in `/repo/tests/CMakeLists.txt`: 169 of 170 give the expected verdict
"correct" (`pf-substitution-large.eo` did not finish within ten minutes: its terms are exponentially large when not shared).  The C++
program itself was neither built nor run.

## 7. Mutation testing

`seeded/LOG.jsonl` has one line for each deliberate mistake that was put into a
copy of the model, with the theorems that no longer proved.  Where a theorem
survived although its claim became false it was tightened, which the line says.

## 8. Print Assumptions

Each property theorem is followed by `Print Assumptions` in its file; the output of the build:

* `PropAlgebra.v`: "Closed under the global context" for C90_arithmetic, C90_bits, C90_division, C90_rational_division, C90_strings.
* `PropBack.v`: "Closed under the global context" for C76_read_back, C76_every_term_refuted.
* `PropBuild.v`: "Closed under the global context" for C28_right_assoc_nil, C28_left_assoc_nil, C28_non_singleton_many, C28_non_singleton_few, C28_non_singleton_one, C28_right_assoc, C28_left_assoc, C28_chainable, C28_pairwise, C28_arg_list, C28_plain, C28_higher_order, C28_right_assoc_one_argument_refuted, C28_assoc_one_argument, C28_chainable_one_argument_refuted, C28_combine_one_argument, C29_read_back, C29_injective, C29_left_read_back_refuted, C29_parameterized_nil_refuted, C37_first_alternative_refuted, C37_last_alternative_partial, C37_as, C37_as_constant_refuted.
* `PropBuild2.v`: "Closed under the global context" for C59_value, C59_substitution, C59_other_arity, C60_left, C60_operators, C60_values, C61_opaque, C61_fewer, C62_program, C62_program_arity, C62_rule.
* `PropCache.v`: "Closed under the global context" for C78_right, C78_found, C78_later_refuted.
* `PropCheck.v`: "Closed under the global context" for C38_refuted, C38_sound_partial, C39_refuted, C39_nested_partial, C36_run_refuted, C40_reference_partial, C40_refuted, C41_one_reference_partial, C41_command_line_refuted, C41_include_refuted, C41_second_refuted, C42_verdict, C42_closed, C42_stdin_refuted, C49_once, C49_repeat, C43_discharges, C43_stated, C43_binds.
* `PropCmd.v`: "Closed under the global context" for C69_exact, C69_accepts, C70_exact, C70_accepts, C71_one_list_refuted, C71_one_list_partial, C72_defined_refuted, C72_bound_refuted.
* `PropData.v`: "Closed under the global context" for C72_datatypes_partial, C72_datatype_partial.
* `PropDerived.v`: "Closed under the global context" for C85_is_list, C85_cons, C85_length, C85_concat, C85_nth, C85_nth_none, C85_find, C85_rev, C85_erase, C85_erase_all, C85_setof, C85_diff, C85_inter, C85_singleton_elim, C85_eq, C85_tests, C85_order, C85_gt_refuted, C85_left_refuted.
* `PropDerived2.v`: "Closed under the global context" for C85_minclude, C85_meq, C85_is_var.
* `PropEnv.v`: "Closed under the global context" for C80_names, C80_reading, C68_inside_partial, C68_applied_partial.
* `PropEval.v`: "Closed under the global context" for C20_evaluate_exact, C20_outcomes, C20_unique, C20_substitution, C20_program_call, C21_program_to_the_end_refuted, C21_program_to_the_end_partial, C22_ite_lazy, C22_ite_stuck.
* `PropLaws.v`: "Closed under the global context" for .
* `PropLex.v`: "Closed under the global context" for C44_partial, C44_stdin, C44_refuted, C45_characters, C45_stdin, C45_file_or_stdin, C46_tokens, C46_layout_ignored, C46_symbol, C46_symbol_name, C46_string, C46_keyword_refuted, C46_nul_refuted.
* `PropList.v`: "Closed under the global context" for C23_eq, C23_is_eq, C23_is_ok, C23_requires, C24_length, C24_cons, C24_concat, C24_nth, C24_find, C24_rev, C24_singleton_elim, C24_not_a_list, C25_erase, C25_erase_all, C25_setof, C25_diff, C25_inter, C26_minclude, C26_meq, C26_meq_both_inclusions, C27_left_lists_refuted, C27_left_lists_partial, C27_rev_is_identity, C27_concat_reverses_second, C53_list_operators_on_values_refuted, C53_list_operators_partial.
* `PropLit.v`: "Closed under the global context" for C01_zdiv_zmod_euclid, C02_zdiv_floor_refuted, C02_zdiv_floor_partial, C03_literals_stay_wf, C03_tokens_wf, C04_bv_nary, C04_bv_unary, C04_bv_divmod, C04_bv_widths_differ, C05_concat_bits, C05_extract_bits, C05_extract_above, C05_extract_empty, C05_split_concat, C05_concat_split, C06_extract_past_top_refuted, C06_extract_only_past_top_refuted, C06_extract_not_wider_partial, C07_concat_width_refuted, C07_concat_width_partial, C08_string_text_roundtrip, C09_concat, C09_length, C09_find, C09_extract, C10_chars_lost_refuted, C10_chars_kept_partial, C11_rat_nary, C11_rat_div, C11_num_div, C11_rat_unary, C11_rat_gt, C11_equal_values_same_literal, C12_to_z_to_q, C12_code_points, C12_to_bin, C12_bin_roundtrip, C12_to_bin_of_bv, C12_identities, C13_to_str_out_of_range_refuted, C13_to_str_partial, C14_arity_safe_refuted, C14_arity_safe_partial, C15_result_category, C15_mixed_never_evaluates, C15_domain, C16_hex_print_refuted, C16_empty_bin_print_refuted, C16_print_read_partial, C51_union_member_refuted, C51_union_member_partial, C52_bool_operators, C52_num_operators, C52_num_gt, C52_bv_gt.
* `PropLocal.v`: "Closed under the global context" for C67_names_kept, C67_static, C67_abbreviation, C68_hides_refuted, C68_lasting_refuted.
* `PropMade.v`: "Closed under the global context" for C82_closed, C82_read, C81_local, C81_command, C81_file, C81_conditions_needed.
* `PropMain.v`: "Closed under the global context" for C77_items, C77_run, C77_stops, C77_unrecognized, C77_undefined, C77_refuses_refuted.
* `PropNames.v`: "Closed under the global context" for C84_operator, C84_arrow, C84_meaning, C84_meaning_only, C84_booleans, C84_attributes, C84_literals, C84_manual_refuted.
* `PropNumber.v`: "Closed under the global context" for C88_numeral, C88_decimal, C88_rational, C88_bits.
* `PropOperators.v`: "Closed under the global context" for C17_operators.
* `PropOrder.v`: "Closed under the global context" for C90_order.
* `PropPreserve.v`: "Closed under the global context" for C83_preserved_partial, C83_refuted.
* `PropPrint.v`: "Closed under the global context" for C73_names, C73_kinds, C73_read_back, C73_distinct, C73_operators, C73_every_operator, C73_every_name_refuted, C73_every_name_distinct_refuted, C74_text, C74_only, C74_one_text, C75_shared, C75_expansion_refuted.
* `PropPrinted.v`: "Closed under the global context" for C08_printed.
* `PropRead.v`: "Closed under the global context" for C66_reads, C66_exact.
* `PropRef.v`: "Closed under the global context" for C40_normalized_partial, C40_accepts, C58_refutation_partial, C58_refuted.
* `PropRule.v`: "Closed under the global context" for C64_follows_declaration, C64_nullary_refuted, C65_assumed, C65_concluded.
* `PropRunEnv.v`: "Closed under the global context" for C63_run, C63_run_exact, C20_run_exact, C63_run_read, C86_declared, C86_typed, C86_read, C86_elements, C86_manual_refuted.
* `PropSafe.v`: "Closed under the global context" for C87_refuted, C87_safe_partial, C87_operator_partial.
* `PropScope.v`: "Closed under the global context" for C35_names, C35_restores, C35_accepted, C35_no_ub, C35_rules_refuted, C35_marks_refuted, C37_unapplied_refuted, C57_partial, C57_refuted, C36_no_names, C36_alternatives_refuted, C36_meaning_refuted, C36_rules_refuted, C36_partial, C47_one_rule, C47_conflict, C47_one_attribute, C47_refused, C47_first.
* `PropStep.v`: "Closed under the global context" for C43_declared, C43_concludes.
* `PropStore.v`: "Closed under the global context" for C32_applications_differ, C32_same_application, C32_without_deletion, C32_literals, C32_symbols, C32_equal_terms, C32_stable, C30_hash, C30_compare_irreflexive, C30_compare_total, C30_compare_transitive, C30_compare_stable, C30_compare_hash, C56_hash_refuted, C56_order_refuted, C56_partial, C56_order_partial, C31_ground, C31_not_ground, C31_escaped_name_refuted, C31_var_operator, C33_refuted, C33_partial, C33_lost, C33_two_objects_refuted, C34_refuted, C34_missing_entry_refuted, C34_safe_iff, C34_requests_served, C54_in_use, C55_refuted, C55_arguments_kept, C55_partial.
* `PropString.v`: "Closed under the global context" for C88_string.
* `PropSym.v`: "Closed under the global context" for C79_command, C79_file, C79_made_once, C79_start.
* `PropTerm.v`: "Closed under the global context" for C17_flags_exact, C18_match_total, C18_match_sound, C18_match_complete, C18_instance_unique, C19_first_case, C19_stuck_arguments, C48_accepted_case_ground, C48_check_exact, C50_getVariables, C50_hasVariable.
* `PropType.v`: "Closed under the global context" for C63_exact, C63_unique, C63_bound, C63_function, C63_untyped.
