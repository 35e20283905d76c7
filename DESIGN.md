# Formal model of corywalker/expreduce in Rocq (Coq 8.16.1)

## Layout

* `rocq/theories/M_*.v` - the executable model, one definition per Go function, each with a
  citation of the file and lines it models and a note for every simplification.
* `rocq/theories/S_*.v` - small specifications that do not mention the model's helpers.
* `rocq/theories/P_*.v` - proofs.
* `rocq/theories/T_*.v` - property theorems only: statement, `exact lemma`, `Print Assumptions`,
  and non-vacuity examples.
* `seeded/LOG.jsonl` - record of the wrong programs tried against the theorems.
* `MANIFEST.json` - property -> theorem names and status.

Naming: `..._partial` proves part of the property, `..._refuted` exhibits an input on which the
faithful model (and hence the code) violates the property as stated.

## Plan per property

| id | modelled | proof method |
|----|----------|--------------|
| C01 | evalRational over Z | case analysis + Z.gcd lemmas; uniqueness of lowest terms |
| C02 | ComputeNumericPart, addI/addR/mulI/mulR, typedRealPart | induction on the list with value in Q; permutation invariance |
| C03 | complex accumulators | induction, values in Q*Q |
| C04 | splitTerm/collectTerms/collectedToTerm | induction, valuation into Q |
| C05-C07 | ExOrder with 53-bit rounding of integers/rationals | strong induction on size; witnesses for the refuted parts |
| C08 | sort.Sort (insertion sort below 12, abstract contract above) | permutation/sortedness induction |
| C09-C10 | FNV-1a hash byte streams, almostEqual | structural induction; collision witness |
| C11-C13 | IsEqual of every atom, comparisonFn, extremaFunction | case analysis; witnesses |
| C14-C17 | GCD/Mod/primeFactors/Power/nthRoot | number theory over Z, loop invariants |
| C18 | factorial over a heap of integer cells | loop invariant; aliasing witness |
| C19-C20 | genIntegerPartitions/genPermutations | induction: sound, complete, NoDup |
| C21-C22 | allocIter/assnIter as explicit state machines | enumeration = specification list |
| C23-C26 | matcher (iterator of solutions as a lazy list), ReplacePD | soundness/completeness against an inductive match relation |
| C27 | replaceAll / rulesReplaceAll | structural induction; witness for sequential application |
| C28-C31 | Define/Clear/GetDef/MarkSeen, attributes | invariants over operation lists |
| C32 | snagUnique/Module | freshness invariant over histories |
| C33 | Define as read; compute; write steps of goroutines | state machine, interleavings; lost-update witness, and safety for distinct keys |
| C34-C38 | evalExpression's argument loop and splicing with an abstract evaluator; And/Or/If/Which with a state-passing evaluator | induction on argument lists |
| C39-C40 | iterspec state machine | induction, history of definitions |
| C41-C45 | list builtins | list induction; Int64 truncation written explicitly |
| C46 | level spec walks | structural induction |
| C47 | thrown flag in the state-passing evaluator | induction on the argument list |
| C48 | heap model of expressions with EvaledHash | witness histories |
| C49-C50 | distribute; dimensions/Transpose/Dot | induction; witness for ragged arrays |
| C51 | evalFunction | structural induction |
| C52 | ProcessTopLevelResult | induction over sessions |
| C53 | fullyAssoc etc. | induction over chains |
| C54 | FullForm printing | unique readability; witness for strings |
| C55 | FoldList/NestList/Array loops | list induction; witness for counts beyond int64 |
| C56 | conversion of operator chains (parser/interp.go) | induction over the syntax tree, value in any commutative ring |
| C57-C59 | MemberQ/Cases/DeleteCases, Length/LeafCount/Depth, SameQ/UnsameQ chains | induction over lists and expressions |
| C60 | DownValues read and assigned | invariants of the definition store |
| C61 | With | substitution specification; witnesses for the sequential replacement |
| C62-C64 | StringJoin/StringLength/StringTake, StringReplace, ExportString Base64 | byte lists; leftmost-replacement relation; UTF-8 and Base64 specified from the RFCs |
| C65 | InputForm printing of arithmetic as tokens | value-labelled grammar derivations, recursive-descent reader, any commutative ring with powers |
| C66 | IntegerDigits / FromDigits loops of numbertheory.m on Z | induction on the loop, uniqueness of numerals |
| C67 | FactorInteger: factor loop, Tally, the ExOrder sort, DeleteCases | value as product in Q, permutation and order lemmas of C05–C08 |
| C68 | EulerPhi product over FactorInteger | inclusion–exclusion by induction on the prime list |
| C69 | Fibonacci with the memo table of stored definitions | invariant over every history of calls |
| C70 | GCD/LCM/Mod/FractionalPart/IntegerPart rules; GCD as a nondeterministic rewriting relation | common-divisor invariant of each rule |
| C71 | M_LibBool.v: rules of simplify.m 2-37 and boolean.m as functions on expressions, applied anywhere in a formula | every rule preserves the value in every Boolean model; a measure decreases |
| C72 | M_LibMat.v: the three formulas of Inverse (matrix.m 2-4) as expressions | evaluated in an abstract field, both products are the identity (field tactic) |
| C73 | M_LibPoly.v: the loop of PolynomialQuotientRemainder over mathcomp polynomials, with its limit of 19 rounds | loop invariant q b + r = a; size of r decreases each round; uniqueness from divp; refutation by a closed form of the rounds on c x^n by x+1 |
| C74 | M_LibPoly.v: the loop of PolySubresultantGCD, SquareFreeQ | invariant: gcd u v stays associate to gcd a b; square-freeness via the derivative in characteristic 0; refutation by a closed form of two rounds |
| C75 | M_Defs.v: module_eval (snag_all, init_locals), over any evaluation function | induction over the locals: each entry survives the later initialisers; substitution relation of S_Match.v for the body |
| C76 | Multinomial, possibleExponents, genExpand and the two rules of Expand as written in power.m (M_LibExpand.v), composed from the models of IntegerPartitions, PadRight, Permutations and Flatten; values in an arbitrary field | multinomial theorem by induction on the number of summands; the exponent lists are a permutation of the canonical enumeration; rewriting steps by induction on the context (P_LibExpand*.v, T_LibExpand.v); termination by a weight (sums add, products multiply, powers of sums 4^(w(n+1))) that every application makes smaller |
| C77 | M_LibCalc.v: the rules of D and Grad (calculus.m 2-17, 44) as a relation with every choice of the matcher; S_Real.v: real value of an expression and where it is regular | induction over the derivation: derivable_pt_lim of each rule (chain, product, power rules of the standard library); substitution lemma for the slot; refutations by the rule for Abs and by FreeQ of {x, 2} |
| C78 | the rules of trig.m and simplify.m 38-40, 127 as a relation on expressions (M_LibTrig), real semantics with a definedness predicate (S_Trig) | case analysis on the rules with the addition theorems; refutation of the Cot rule with a spliced sequence |
| C79 | arctan2 and the four RotationMatrix rules as functions (M_LibTrig) | cos_atan/sin_atan by quadrant; matrix times vector compared with Rodrigues' formula |
| C80 | compound_loop and while_loop of M_Eval (builtin_flowcontrol.go 87-131); rounds described by the relation while_ends | induction over the statements and over the rounds; refutation by execution and a divergence proof |
| C81 | Select and Scan as builtins over the evaluator (M_Callback.v), specified by traversal relations over evals_to | induction on the traversal, one evaluator pass |
| C82 | FixedPoint and NestWhileList as fuelled loops over the evaluator | induction on the iteration relation; divergence by induction on the fuel |
| C83 | ReplaceList over the matcher's list of all matches (M_Replace.v) | soundness and completeness of the matcher (C23, C24) |
| C84 | replaceParts as a recursive function; the shared position list by its final content (M_Replace.v) | induction on the position |
| C85 | Rules of Power, Sqrt, Times as a relation power_rule (M_LibPower); nonzero complex numbers in polar form with principal powers (S_Polar) | case analysis over the rules; lemmas on principal angles (P_Polar); three unsound rules get a _partial and a _refuted theorem |
| C86 | Rules for Re, Im, Arg, Abs, Conjugate, Log, ComplexExpand, Complex^n as a relation (M_LibComplex); complex values as pairs of reals (S_Complex) | case analysis; Euler's formula, de Moivre by induction, ArcTan[x,y] from C79; refutation of two Log rules |
| C87 | The rules of PowerExpand as a relation (M_LibComplex) | positivity by induction over the expression, then exp/ln algebra |
| C88 | the formulas of equationdata.m as expressions (M_LibSolve), complex values (S_Complex) | field identities (P_Algebra: Cardano, Ferrari) over the complex field; T_LibSolve |
| C89 | applyInverse / isolate as relations (M_LibSolve) | mutual induction on the isolation, one lemma per inverse; T_LibSolve2 |
| C90 | S_Call states when an expression fits a pattern (an inductive relation that gives the bindings) and which right-hand side a call selects (definitions in order, conditions evaluated outside in), with no reference to the matcher or to GetDef; M_Match, M_Defs and M_Eval are the model. | P_Call shows that the matcher decides fits exactly on patterns of this form with distinct variables (one match, or none); the call theorem composes it with the evaluation of the arguments, the rule loop and the evaluation of the body; Return by induction over the passes of the evaluator; the factorial by induction over n. |
| C91 | M_Parallel: the loop that prepares the bodies, a goroutine as a thread whose atomic steps are the iterations of the evaluation loop (proved equal to Eval when it runs alone), a scheduler that picks any unfinished thread; the loop of Table cut into its three statements. S_Parallel: pure evaluations and instances of a body. | Invariant: in every reachable configuration the state is unchanged and each thread still leads to its value in a known number of steps, whose sum decreases with every step; hence confluence, progress and termination. Races by explicit schedules. |
| C92 | builtin_replacement.go 153-195: the loop of ReplaceRepeated as a builtin that calls the evaluator (M_Callback) | inductive relation of the rounds; result is its last member; divergence from an orbit without repetition; agreement with ReplaceAll for constant rules from C27 |
| C93 | graphics.go as a recursive function from expressions to series (M_Graphics) | position-based specification of lines and directives in force (S_Graphics), induction on the expression |
| C94 | streammanager.go and WriteString/Streams as transitions on the text written to each stream (M_Streams) | case analysis of the stream arguments, induction on the history of calls |
| C95 | builtin_system.go Names with the regular expressions that arise from filters (M_Streams) | inductive glob relation; equivalence with the regular-expression matcher by induction; sortedness from C30's sort lemma |
| C96 | Set and the library rules of the counters (M_LibAssign) run by the evaluator model | C96_set by one pass; counters through library_call (a C90_call for one rule); divergence by induction on the fuel |
| C97 | For as its library rule, While and CompoundExpression as modelled | rounds -> while_ends by induction; sample program by a loop invariant on the store |
| C98 | M_Package: session variables and the four rules, with M_Parse name resolution | induction over package bodies with an invariant on the known symbols; concrete counterexamples for nesting |
| C99 | M_Interrupt: the evaluator with the interrupt flag read in tryReturnValue, the moment of the interrupt an arbitrary function of the state; top_result | monotonicity in the number of steps, induction over rounds; agreement with M_Eval when never interrupted |
| C100 | M_Save: file system, search path, Save and Get over the definition store of M_Defs | round trip by induction over the saved list; refutations by concrete sessions and, for the lost implementation, for every built-in symbol |
| C101 | M_Script: EvalInterpMany, ReadList and the interactive loop over an arbitrary parser and evaluator | run relation `executes`, equivalence with the loops by induction; labels by reduction to the session history of C52 |
| C102 | M_OpForm: printers of operators, NeedsParens with an arbitrary precedence table; S_OpForm: operator-precedence reader producing the parser's tree, then M_Parse conv/unparen | by induction on the expression: the text printed in a context of level k is read up to any follower of lower precedence; functional reader gives uniqueness |
| C103 | First, Last, Rest, Take as compositions of the Part model (M_LibList) | reduction to C41 |
| C104 | Total, Mean, Count, Tally (M_LibList) over Plus, Times, Count, DeleteDuplicates | reduction to C02, induction over the walk of Count, C42 |
| C105 | Fold, Nest (M_LibList) over FoldList, NestList, Last | induction on the list / count |
| C106 | Tuples (M_LibList) over Prepend, Flatten | induction on n against lexicographically sorted positions |
| C107 | M_Prime with the sieve, the primality test and the float bound as arguments; S_Prime counts primes with duplicate-free lists | direct, from the ascending-list lemmas; the reference sieve shows the hypotheses can be met |
| C108 | power_int and Mod composed as numbertheory.m 231 does | direct |
| C109 | M_LibManip: Numerator and Denominator on the factors of a product; the recognised factors stated on their own as reciprocal | induction on the factors in any field (S_Field) |
| C110 | together: the five rules as a relation with all matches Flat/Orderless allow; Expand and evaluation any relations that keep values (C76, C04) | induction on the rule applications |
| C111 | factor_const: GCD of the coefficients with the sign of the last | divisibility |
| C112 | M_Attr composes Attributes, Union/Complement (M_List) and the assignment of M_Defs as system.m 201-222 does | from C31 and C42; the 19 attribute symbols have distinct hashes by computation |
| C113 | library rules of AppendTo/PrependTo (M_LibAssign) run by the evaluator model with Append/Prepend as builtins; state change of Set | composition of C90 (call), C96 (Set) and a lemma that lists of values are values; induction over the statements; divergence of the unset case by fuel induction |
| C114 | Sow and Reap of the evaluator model (M_Eval), the collected values as a field of the state | one pass each; induction over the statements; computed counterexamples for nesting |
| C115 | exprToN as a recursive function over expressions with the lookup of N's definitions as a parameter; floats as in M_Float | correct rounding proved in Q by comparing with every integer multiple of 2^e; Pi by Machin's series, e by the alternating series for 1/e |
| C116 | the library rule FreeQ[expr_, val_] := expr === (expr /. val -> dummy) run by the evaluator model | the marked expression equals e iff no subterm matches (induction on rewrites), then evaluation of the body |
| C117 | propagate_conditionals inside pass (M_Eval) | inductive separation of arguments; the run of the call is, step for step, the run of the conditional expression |
| C118 | M_Module: parse_local, start_locals, module_fn, block_rules | the builtin inside the evaluator monad; names from C32, substitution from C75; an inductive relation creates the locals |
| C119 | trigToExpInner and its Map over all levels; the rules for powers of E and FullSimplify's rule as a relation (M_LibExp) | structural induction; complex arithmetic on pairs of reals; cos/sin by Euler's formula |
| C120 | flat_replace inside replace_all (M_Eval, replace.go 11-90) | reduce to the matcher's soundness (C23) and completeness (C24) with two blank sequences around the pattern list; consecutive blocks are a division |
| C121 | set_delayed_fn inside the evaluator (M_Eval) | one evaluator pass (P_Eval4), evals_list, definition twice is definition once (C28), C90 for the call |
| C122 | M_Num (Float Add/Mul, accumulators), M_Arith; S_MReal: values, drift | error bound by invariant over the accumulators; whole numbers exact; sorted permutations of machine reals have pairwise the same value; refuted: grouping, rational conversion |
| C123 | M_Random: RandomReal, SeedRandom over any generator | monotone rounding; the machine real below max - min; refuted: half open, seeds distinct |
| C126 | M_LibInf: rules as a relation and the two Which bodies over the comparisons of M_Compare; limits of real sequences; case analysis on the comparisons |
| C127 | M_LibInf: rules as a relation; partial sums by induction; the series by the Basel theorem, proved in P_Basel |
| C128 | M_Simplify: the measure against a size relation; the search with the rewriters as parameters; induction on expressions |
| C129 | M_Unique: freshness from the search loop's invariant, pigeonhole for success; mn_state for the counter |
| C130 | M_Trace: the loop with its tracing code, the rest of an iteration as a program with calls of Eval and Trace; induction on fuel and programs; a small machine for the refutations |
| C131 | M_DefText: the expressions and InputForm text of Definition[s]; specification says/stored in T_DefText; proof by the read-back theorem of C102, the store invariant of C29, and induction on the rules |
| C132 | M_ClearAll: the library rule as an expression, and its effect on the definition store (Scan over the evaluated list); proof by induction on the list; counterexample also by running the rule in the evaluator of M_Eval |
| C133 | M_ReplacePart: the rule over Part, Join and Length of M_List, evaluation of the pieces a parameter; proof by the span theorem C103 and C43 |
| C134 | functional.m 219 as a library rule on the evaluator and the callback model (C82): the orbit of f as a function from nat to values, induction on the number of steps left; refutation by a HoldAll function with four rules |
| C135 | timecounter.go: maps as association lists with the loop order as an argument; grouping, sorting and printing proved against a specification by counting the keys with larger times |
| C136 | rules of atoms.m 52-55 as a relation on argument lists (M_CplxRules), values in Q x Q (S_Num); invariance of the sum/product per step, canonical forms are unique, so the builtin's result is unchanged |
| C137 | rules of system.m 226, 235-237 run by the evaluator (M_Timed, C90_call); divergence of the call from divergence of the body by monotonicity in the fuel |
| C138 | the 64 bit arithmetic of builtin_time.go 24-48 (M_Pause); linear arithmetic with wrap64 as z + k 2^64 |
| C139 | token lists of TeXForm printing (M_TeX); nesting by a grammar, induction on the expression; minus signs that Plus strips by induction on the grammar |
| C124-C125 | M_RealFn: Power with machine reals, mathFnOneParam, bigMathFnOneParam, outcomes with panics; mathbigext and math as parameters | case analysis; refuted: totality ((-2)^0.5, Sin[Cot[0.]]) |

Not expressible in the model: wall-clock time, goroutine scheduling inside the Go runtime beyond
the atomic map operations, memory consumption, the third-party `wl` lexer/grammar, and the dispatch of
the evaluator over the whole rule base of the `.m` resource files (single library functions are modelled).

## Trusted base

* **Kernel.** Coq 8.16.1's kernel (with its `vm_compute` conversion, used to evaluate closed terms such as
  hashes) accepts every theorem. No kernel check is switched off, no plugin is loaded beyond those of the standard distribution.
* **Axioms.** Every theorem listed in MANIFEST.json is followed in its `T_*.v` file by `Print Assumptions`,
  and Coq answers `Closed under the global context` (no axiom at all, neither ours nor the standard library's)
  for all of them except the theorems about real numbers (T_LibCalc.v and the other files that import
  S_Real.v), for which it lists axioms of the standard library's real numbers and nothing else, at most these four:
  `ClassicalDedekindReals.sig_forall_dec`, `ClassicalDedekindReals.sig_not_dec`,
  `FunctionalExtensionality.functional_extensionality_dep`, `Classical_Prop.classic`. (`vcheck` lists seven `Coq.ssr.ssrunder.Under_rel.*` entries; these are fields of a
  module type in Coq's own ssreflect library that gets loaded, and no theorem depends on them.)
* **The model is a hand translation.** That `M_*.v` says what the Go code does is not machine-checked. Each
  definition cites file and lines, and states its simplifications in its comment. What follows is the summary.

### Modelled (file -> Go code)

| file | Go code | left out / simplified |
|------|---------|-----------------------|
| M_Syntax, M_Hash, M_Order, M_Sort | atoms/*.go data types, Hash, IsSameQ, order.go, sort of arguments | FNV-1a and gob byte streams are written out; hash caches only in M_Heap; `sort.Sort` is its insertion-sort path for fewer than 12 arguments and, above, any permutation sorted for the comparison |
| M_Float | math/big Float at precision 53, nearest-even, float64 bit patterns | exponent range unbounded (Go: 32 bits); other precisions |
| M_Num, M_Arith | evalRational/evalComplex, calculator.go, Plus and Times | see comment at M_Arith.v 90 |
| M_Compare | IsEqual methods, Equal/Unequal/Less/Inequality/SameQ/Max/Min | numeric value only of numbers |
| M_NumTheory, M_Comb | GCD, Mod, PrimeQ-free factor loops, Power of integers/rationals, nthRoot, IntegerPartitions, Permutations, Factorial | big.Int is Z |
| M_Alloc, M_Match | matcher/*.go: allocIter, assnIter, matchq, blanks, optional/repeated patterns, named bindings | conditions and pattern tests are a parameter (a function of the expression); explicit stacks are recursion in the same order |
| M_Defs, M_Conc | evalstate.go, definition_map.go: Define, GetDef, Clear, attributes, MarkSeen, Module names, In/Out history, DownValues; interleavings of concurrent Define | one Define per thread; one atomic read of the rule list |
| M_Eval | eval.go, replace.go, iterspec.go, flow control, Boolean functions, Table/Do/Sum, Function, With, Reap/Sow, Throw/Catch | immutable trees (in-place effects in M_Heap), tracing, profiling, interrupts |
| M_Heap | in-place evaluation, EvaledHash/CachedHash, Set/SetDelayed aliasing, factorial's in-place update | heads without attributes or downvalues |
| M_List, M_Functional, M_Matrix | builtin_list.go, builtin_expression.go, builtin_functional.go, builtin_matrix.go, Distribute | a malformed (headless) expression, on which Go panics, is left alone |
| M_Parse | parser/interp.go: from the `wl` syntax tree to an expression | the third-party lexer and grammar |
| M_Print | StringForm with FullForm | floats print as an opaque token |
| M_InputForm | StringForm with InputForm for Plus, Times, Power, List and ordinary calls | text as tokens; third-party precedence table reduced to Plus < Times < Power; other print functions |
| M_String | builtin_string.go and the parts of Go's `strings`, `utf8`, `base64` it calls | the PNG branch; ToLower on ASCII only |
| M_LibNum | resources/numbertheory.m (and Tally of list.m) | rule bodies transcribed to functions on Z and Q: that the evaluator runs them so is not proved; Integers compared by value |

| M_Callback | builtin_list.go: Select, Scan; builtin_functional.go: FixedPoint, NestWhileList; builtin_replacement.go: ReplaceRepeated | builtins over the evaluator of M_Eval (field c_other of the configuration); headless arguments left alone |
| M_Replace | builtin_pattern.go: ReplaceList; builtin_replacement.go: ReplacePart | Conditions on the right hand side of a position rule are not opened; aliasing of the position list is modelled by its final (empty) content |
| M_LibPower | rules of Power, Sqrt and Times (power.m 2-72, 253-263, arithmetic.m 125-139) | relations; arithmetic of literal numbers done at once; rules about infinities and machine reals left out |
| M_LibComplex | rules about complex numbers (atoms.m 111-154, power.m 71-73, 231-240, 842-889, 910, arithmetic.m 248-251) | relations; machine reals and infinities left out |
| M_LibSolve | resources/equationdata.m 1-3, solve.m 23-92, 115-133, 186-187, 317-318 | Simplify/Sort of the solutions, checkSolution, uSubstitute, collect, Cot/Cosh and the inverses of ArcSin, ArcCos, ArcTan left out; C[1] is an integer parameter; PowerExpand of a square root at most once, at the root |
| M_Package | resources/system.m 155-194, evalstate.go 637-665 | BeginPackage, EndPackage, Begin, End as effects on the session variables |
| M_Interrupt | eval.go 335-356 (interrupted case) with 20-333 around it, builtin_flowcontrol.go 87-114, evalstate.go 289-295, 699-718 | the interrupt flag |
| M_Save | builtin_system.go 97-150, 781-867 (tryReadFile, Get, Save) | gob and zlib taken as lossless; caches of expressions not kept; running a text file is only a tag |
| M_Script | easyrun.go 33-76, parser/interp.go 520-576, expreduce.go 103-199 | grammar and evaluator are parameters; $PrePrint, uncaught Throw and the printed text left out |
| M_TeX | string.go 65-130, 170-191; ex_symbol.go 19-44; builtin_arithmetic.go 172-212; builtin_power.go 128-194; builtin_trig.go 31-57 (TeXForm) | Times, List, Subscript, comparison and pattern heads, strings, machine reals and complex numbers are left out |
| M_Pause | builtin_time.go 24-48 (Pause) for integers | machine reals and the timer itself are not modelled |
| M_Timed | system.m 224-237 (Quiet, TimeConstrained) | messages (Quiet suppresses none) and time are not modelled |
| M_CplxRules | resources/atoms.m 52-55 | the rules for sums and products of complex numbers; machine reals are in the model, the theorems are about exact numbers |
| M_TimeCount | timecounter.go: timeCounter (addTime, update, truncatedString) | the four counters of a Group, fmt.Sprintf |
| M_FixedList | functional.m 219 (FixedPointList) | NestWhile is not modelled here |
| M_ReplacePart | replacement.m 201-205 | evaluation of compound expressions with evaluated parts is a parameter |
| M_ClearAll | system.m 206, 293-300 | values of symbols: atoms and symbols only; the arguments are evaluated once |
| M_DefText | definition.go 10-58, builtin_system.go 413-442 | names printed with contexts; Set and SetDelayed of the pieces reduced to the assignment |
| M_Trace | eval.go 20-180, 255-260 (tracing), builtin_system.go 683-712 | rules, builtins and attributes are a parameter (a program with calls of Eval and Trace) |
| M_Simplify | builtin_expression.go 53-80, simplify.m 41-81 | the measure and the search; rewriters are parameters, evaluation of rebuilt nodes left out |
| M_Unique | builtin_system.go 152-179, 381-399, 898-908, 980-1001; atoms/ex_symbol.go 102-108 | Unique, Hash, Default |
| M_LibInf | specialsyms.m 2-4, power.m 18-50, arithmetic.m 94-101 | rules about Infinity, closed forms of sums |
| M_Random, M_RealFn | RandomReal/SeedRandom, Power of machine reals, mathFnOneParam, bigMathFnOneParam | generator, mathbigext, Go math and es.Eval are parameters |
| M_LibExp | trig.m 98-104, power.m 79-81, simplify.m 126-128 | calls of Expand (C76) and evaluation of the arithmetic in between left out |
| M_Module | expreduce/builtin_system.go 181-265 (applyModuleFn in the evaluator), resources/system.m 134-149 (Module, Block) | `parse_locals`, `start_locals`, `module_fn`, `block_rules` |
| M_N | builtin_system.go 42-95, 713-720, specialsyms.m 47, 52 | N: exprToN with the definitions of N as a parameter |
| M_FreeQ | pattern.m 362-363, system.m 148-149 | FreeQ (and Block) as library rules |
| M_Attr | system.m 201-222 | the rules composed as functions on the definition store |
| M_LibManip | manip.m 1-19, 71-91; power.m 566-568, 627-634 | sums and products as the rules build them, before Plus and Times simplify |
| M_Prime | builtin_numbertheory.go 120-213, qfunctions.go 90-98, numbertheory.m 231 | the sieve library, ProbablyPrime and the floating point bound are arguments |
| M_LibList | resources/list.m, functional.m, combinatorics.m rules for First, Last, Rest, Take, Total, Mean, Count, Tally, Fold, Nest, Tuples | evaluation of the results of user functions, ConstantArray |
| M_OpForm | expreduce/string.go 11-48, 65-130, parser/parens/parens.go, toString functions of operators, lists, parts, patterns | lexing, TeXForm, fractions and signs in products (M_InputForm), HoldForm, Infix, Optional |
| M_LibAssign | resources/arithmetic.m 281-337, flowcontrol.m 110-111 | the rules of Increment, Decrement, PreIncrement, PreDecrement, AddTo, SubtractFrom, For, AppendTo, PrependTo (list.m 299-318) |
| M_Streams | streammanager/streammanager.go; builtin_system.go: WriteString, Streams, Names | writing does not fail; regular expressions restricted to plain characters, ., ^, $ and * |
| M_Graphics | graphics/graphics.go: Render, renderPrimitive, renderLine, setDirective and helpers | colour level uint8(float32(x)*255) is a parameter, coordinates kept as floats, messages and chart geometry left out |
| M_Parallel | builtin_list.go 289-330, iterspec.go 241-247, eval.go 47-268 (as atomic iterations) | ParallelTable: instances of the body, goroutines, scheduler |
| M_LibBool, M_LibMat, M_LibPoly, M_LibExpand, M_LibCalc, M_LibTrig | rules of simplify.m/boolean.m, Inverse (matrix.m), polynomial division, GCD, SquareFreeQ and Expand (power.m), Multinomial (combinatorics.m), D and Grad (calculus.m), trigonometric rules, ArcTan and RotationMatrix (trig.m) | rule bodies transcribed; the matcher's choices are left open (relations) or the body is a function; M_LibPoly works on mathcomp polynomials instead of expressions |

Go's standard library (`math/big`, `sort`, `hash/fnv`, `strings`, `encoding/base64`) is modelled from its documented
behaviour, not from its source.

### Not modelled

The `.m` resource files (rules of the standard library written in the language itself) apart from the rules
cited in `M_Lib*.v` and in comments; Rubi, the parts of Solve not in M_LibSolve, TrigExpand and the other trigonometric rewriters not in M_LibTrig, the random number generator itself, plotting (what Plot samples), statistics,
time; TeXForm and OutputForm printing; the byte format of gob and zlib; command-line flags; the
third-party grammar; memory and time consumption; the Go scheduler below the level of atomic map operations.
