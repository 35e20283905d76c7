{"id": "C01", "title": "Rationals are kept in canonical lowest terms", "statement": "Evaluating a Rational with integer numerator n and denominator d returns: Indeterminate if n=d=0, ComplexInfinity if only d=0, otherwise the unique exact representation of n/d: the Integer q when d divides n, else a Rational whose denominator is >1 and coprime to its numerator. The numeric value is exactly preserved and evaluating the result again changes nothing; two fractions with the same value therefore evaluate to the identical expression.", "quantifier": "all integers n and d of any size and sign", "why_tests_cant": "the claim is about unbounded integers and uniqueness of the representation; a test samples a few fractions", "anchors": ["expreduce/eval.go: evalRational", "expreduce/atoms/ex_rational.go: NewRational"]}
{"id": "C02", "title": "Exact sums and products of exact numbers", "statement": "Adding or multiplying any list of Integers and Rationals (the numeric part of Plus and Times) yields, after evaluation, the canonical representation of the exact mathematical sum or product; the result does not depend on the order in which the numbers are given or on how they are grouped.", "quantifier": "all finite lists of Integers and Rationals with non-zero denominators, and all permutations of them", "why_tests_cant": "unbounded lists, unbounded integers and all orderings", "anchors": ["expreduce/atoms/calculator.go: ComputeNumericPart, typedRealPart", "expreduce/atoms/ex_rational.go: addR mulR", "expreduce/atoms/ex_integer.go: addI mulI"]}
{"id": "C03", "title": "Complex arithmetic is exact", "statement": "Adding or multiplying Complex numbers whose components are Integers or Rationals, possibly mixed with real exact numbers, gives a number whose real and imaginary components have exactly the values of the mathematical complex sum or product.", "quantifier": "all finite lists of exact real and complex numbers", "why_tests_cant": "unbounded lists and integers", "anchors": ["expreduce/atoms/calculator.go: ComputeNumericPart", "expreduce/atoms/ex_complex.go: addReal mulReal addC mulC"]}
{"id": "C04", "title": "Collecting like terms preserves the value", "statement": "Plus collects like terms (x + 2x -> 3x), and Plus and Times fold their leading numbers. For every assignment of rational values to the non-numeric terms, the resulting expression has the same value as the original sum or product.", "quantifier": "all argument lists of Plus and Times with exact numbers and all assignments of values to the non-numeric parts", "why_tests_cant": "soundness of a rewriting step over every expression and every valuation", "anchors": ["expreduce/builtin_arithmetic.go: splitTerm collectedToTerm collectTerms"]}
{"id": "C05", "title": "Canonical order is antisymmetric and reflexive", "statement": "Order[a,b] = -Order[b,a] and Order[a,a] = 0 for all expressions whose Complex components are real numbers; Order never returns anything but -1, 0, 1 on them. For Complex numbers with symbolic real part the documented trichotomy fails (-2 both ways).", "quantifier": "all pairs of expressions of any shape and depth", "why_tests_cant": "a recursive comparison with wrapping rules over all pairs of trees", "anchors": ["expreduce/atoms/order.go: ExOrder compareStrings"]}
{"id": "C06", "title": "Canonical order is transitive", "statement": "If Order[a,b]>=0 and Order[b,c]>=0 then Order[a,c]>=0, so that sorting has a consistent meaning.", "quantifier": "all triples of expressions", "why_tests_cant": "a property of triples of arbitrary trees; cycles only appear in contrived nested products", "anchors": ["expreduce/atoms/order.go: ExOrder"]}
{"id": "C07", "title": "Order 0 means identical, and numbers are ordered by value", "statement": "Order[a,b]=0 only if a and b are the same expression, and on real numbers Order agrees with the numeric order.", "quantifier": "all pairs of expressions, in particular all pairs of numbers of any magnitude", "why_tests_cant": "failures need collisions of 53-bit roundings, equal real parts, or 1*x wrappers that sampling does not meet", "anchors": ["expreduce/atoms/order.go: ExOrder", "expreduce/atoms/ex_integer.go: IntegerToFlt", "expreduce/atoms/ex_rational.go: RationalToFlt"]}
{"id": "C08", "title": "Sort returns an ordered permutation; Orderless arguments are canonical", "statement": "Sorting the arguments of an expression yields a permutation of the arguments with every adjacent pair in order, and leaves the head in place; sorting is idempotent; and for arguments on which Order is 0 only for identical expressions, every permutation of the arguments sorts to the same expression (so Orderless functions are insensitive to argument order).", "quantifier": "all argument lists, all permutations, and every sorting algorithm meeting the sort.Sort contract", "why_tests_cant": "needs all permutations of all lists", "anchors": ["expreduce/builtin_sort.go: Sort", "expreduce/eval.go: evalExpression (Orderless)", "expreduce/atoms/ex_expression.go: Len Less Swap"]}
{"id": "C09", "title": "SameQ on exact expressions", "statement": "SameQ is reflexive and symmetric, structurally identical expressions are always SameQ, and SameQ expressions are structurally identical.", "quantifier": "all pairs of expressions", "why_tests_cant": "soundness of a hash comparison over all pairs; counterexamples are hash-encoding collisions", "anchors": ["expreduce/atoms/sameq.go: IsSameQ", "expreduce/atoms/ex_expression.go: Hash", "expreduce/atoms/ex_rational.go: Hash", "expreduce/atoms/ex_integer.go: Hash"]}
{"id": "C10", "title": "SameQ on machine reals tolerates one unit in the last place", "statement": "For finite machine reals a===b holds iff their float64 patterns differ by at most one unit (or they are numerically equal); it is reflexive and symmetric, but not transitive, and not preserved by wrapping in a list.", "quantifier": "all pairs and triples of finite machine reals", "why_tests_cant": "transitivity is a claim about all triples; adjacency of bit patterns is hard to sample", "anchors": ["expreduce/atoms/sameq.go: IsSameQ almostEqual"]}
{"id": "C11", "title": "Equal is sound on exact numbers and symmetric", "statement": "a == b gives True on Integers/Rationals in lowest terms iff the values are equal, never gives True for different values, and a == b and b == a always give the same answer.", "quantifier": "all pairs of expressions", "why_tests_cant": "pairs of arbitrary expressions of different kinds", "anchors": ["expreduce/builtin_comparison.go: Equal", "expreduce/atoms/ex_integer.go: IsEqual", "expreduce/atoms/ex_rational.go: IsEqual", "expreduce/atoms/ex_expression.go: IsEqual"]}
{"id": "C12", "title": "Numeric inequalities agree with the real order", "statement": "a<b, a<=b, a>b, a>=b on exact real numbers return the truth value of the mathematical comparison; chains a<b<c are the conjunction of adjacent comparisons.", "quantifier": "all lists of exact numbers", "why_tests_cant": "failures need operands beyond 53 bits", "anchors": ["expreduce/builtin_comparison.go: Less LessEqual Greater GreaterEqual (comparisonFn)"]}
{"id": "C13", "title": "Max and Min of numbers", "statement": "Max (Min) of a list of integers returns a member of the list that is >= (<=) all the others, and nested lists are flattened first.", "quantifier": "all non-empty lists of integers", "why_tests_cant": "all lists", "anchors": ["expreduce/builtin_comparison.go: extremaFunction"]}
{"id": "C14", "title": "GCD and Mod", "statement": "GCD[a1,...,an] of integers is a non-negative common divisor that every common divisor divides, independent of argument order; Mod[m,n] for n>0 lies in [0,n) and differs from m by a multiple of n; for negative n the Wolfram sign convention (result has the sign of n) is violated.", "quantifier": "all integers and all argument lists", "why_tests_cant": "universal number-theoretic statement over unbounded integers", "anchors": ["expreduce/builtin_numbertheory.go: GCD Mod"]}
{"id": "C15", "title": "FactorInteger yields the prime factorisation", "statement": "For n>=2 the list of factors found multiplies to n, every factor is prime, factors are non-decreasing; the tallied form lists strictly increasing primes with positive exponents and multiplies back to n.", "quantifier": "all integers n>=2", "why_tests_cant": "primality and product over all integers, including termination of the trial-division loop", "anchors": ["expreduce/builtin_numbertheory.go: primeFactors primeFactorsTallied"]}
{"id": "C16", "title": "Integer powers are exact", "statement": "For integers b and e: Power[b,e] with e>0 is the exact integer b^e, with e<0 and b not 0 its exact reciprocal, and b^0 = 1 for b not 0.", "quantifier": "all integers b, e", "why_tests_cant": "unbounded exponents and bases", "anchors": ["expreduce/builtin_power.go: Power"]}
{"id": "C17", "title": "Integer n-th roots are found exactly when they exist", "statement": "When Power simplifies x^(1/n) for positive integers, the Newton iteration terminates and returns the integer r iff r^n = x; otherwise it reports that no integer root exists.", "quantifier": "all positive integers x and all n>=2", "why_tests_cant": "correctness and termination of an iteration over unbounded integers", "anchors": ["expreduce/builtin_power.go: nthRoot"]}
{"id": "C18", "title": "Factorial", "statement": "n! of an integer n>=0 evaluates to the exact product 1*2*...*n, and evaluating it does not change the value of any variable.", "quantifier": "all n>=0 and all definition states", "why_tests_cant": "the side effect on the argument only shows in a later evaluation of the same stored object", "anchors": ["expreduce/builtin_combinatorics.go: factorial Factorial"]}
{"id": "C19", "title": "IntegerPartitions is complete and duplicate free", "statement": "IntegerPartitions[n,k] lists exactly the partitions of n into at most k positive parts, each once, each non-increasing, in reverse lexicographic order.", "quantifier": "all n>=0 and k>=0", "why_tests_cant": "completeness of an enumeration of unbounded size", "anchors": ["expreduce/builtin_combinatorics.go: genIntegerPartitions IntegerPartitions"]}
{"id": "C20", "title": "Permutations is complete and duplicate free", "statement": "Permutations[l] lists exactly the distinct permutations of the list l, each once; for the empty list it should contain the empty permutation.", "quantifier": "all lists, including lists with repeated elements", "why_tests_cant": "completeness of an enumeration of factorial size", "anchors": ["expreduce/builtin_combinatorics.go: genPermutations Permutations"]}
{"id": "C21", "title": "Sequence allocation enumerates every split exactly once", "statement": "When a pattern consists of several sequence forms with minimum and maximum lengths, the matcher tries exactly the ways of dividing n expressions into consecutive blocks whose lengths respect the bounds: every valid split is tried, none twice, none invalid.", "quantifier": "all numbers of expressions and all lists of length bounds", "why_tests_cant": "completeness of an enumeration; a missing split is a silently failing match", "anchors": ["expreduce/matcher/allocations.go: allocIter newAllocIter next"]}
{"id": "C22", "title": "Orderless assignment enumerates every distribution exactly once", "statement": "For an orderless head the matcher tries exactly the assignments of n expressions to forms (each expression used once, block sizes within bounds, expressions inside a block in increasing position) compatible with the pre-computed candidate table, each exactly once.", "quantifier": "all numbers of expressions, all bounds, all candidate tables", "why_tests_cant": "completeness of an exponential enumeration", "anchors": ["expreduce/matcher/allocations.go: assnIter newAssnIter next"]}
{"id": "C23", "title": "A successful match is sound", "statement": "If MatchQ[e,p] succeeds with bindings, then e is an instance of p: there is a derivation, in a declarative semantics of patterns (Blank, BlankSequence, BlankNullSequence, Pattern, Alternatives, Except, HoldPattern, literal expressions), that e matches p under exactly those bindings.", "quantifier": "all expressions and patterns in the modelled pattern language", "why_tests_cant": "all pairs of trees; backtracking search", "anchors": ["expreduce/matcher/matchq.go: NewMatchIter IsMatchQ", "expreduce/matcher/blank.go", "expreduce/matcher/parse_form.go"]}
{"id": "C24", "title": "The matcher is complete", "statement": "If some assignment of the pattern variables makes e an instance of p, then MatchQ[e,p] returns True: backtracking never misses a solution.", "quantifier": "all expressions and patterns in the modelled pattern language", "why_tests_cant": "a missed solution is an absence; completeness is a statement over all derivations", "anchors": ["expreduce/matcher/matchq.go: NewMatchIter IsMatchQ", "expreduce/matcher/allocations.go"]}
{"id": "C25", "title": "Repeated pattern variables bind to the same expression", "statement": "In every reported match each pattern name has one value; two occurrences of x_ only match expressions that are SameQ, and bindings present before the match are preserved.", "quantifier": "all patterns with repeated names and all expressions", "why_tests_cant": "non-linear patterns over arbitrary trees and backtracking orders", "anchors": ["expreduce/matcher/pdmanager.go: update defineSequence", "expreduce/matcher/matchq.go"]}
{"id": "C26", "title": "Instantiating a rule replaces exactly the pattern variables", "statement": "Applying bindings to a right-hand side replaces every occurrence of a bound name, leaves every unbound symbol and every atom unchanged, is the identity for empty bindings, and replaces simultaneously (values are not re-substituted).", "quantifier": "all right-hand sides and all bindings", "why_tests_cant": "all trees and all binding environments", "anchors": ["expreduce/matcher/pdreplace.go: ReplacePD"]}
{"id": "C27", "title": "ReplaceAll with a constant rule rewrites every occurrence", "statement": "For a rule whose left-hand side is a plain symbol or atom, ReplaceAll replaces every occurrence outside protected heads, leaves everything else unchanged, and does nothing when there is no occurrence. A list of rules should be applied simultaneously, each subexpression being rewritten at most once.", "quantifier": "all expressions and all constant rules", "why_tests_cant": "arbitrary trees", "anchors": ["expreduce/replace.go: replaceAll", "expreduce/eval.go: exprReplaceAll", "expreduce/builtin_replacement.go: rulesReplaceAll"]}
{"id": "C28", "title": "The most recent definition of a pattern wins and replaces the old one", "statement": "After lhs := rhs, looking up the stored rules shows rhs for lhs and no other rule with the same lhs (and the same condition); all rules with other left-hand sides are kept, in the same relative order.", "quantifier": "all definition histories", "why_tests_cant": "an invariant over all sequences of definitions", "anchors": ["expreduce/evalstate.go: Define", "expreduce/builtin_system.go: maskNonConditional"]}
{"id": "C29", "title": "Rules are tried from most to least specific", "statement": "In every state reachable by definitions, the stored rules of a symbol are in non-increasing order of specificity, and rules of equal specificity are in order of definition.", "quantifier": "all definition histories starting from a cleared symbol", "why_tests_cant": "an invariant over all histories with a lazily computed sort key", "anchors": ["expreduce/evalstate.go: Define ruleSpecificity"]}
{"id": "C30", "title": "Definitions of one symbol never disturb another", "statement": "Defining or clearing a symbol changes only that symbol's entry; when the state is frozen no definition changes at all; after Clear the symbol evaluates to itself; clearing an unknown symbol changes nothing.", "quantifier": "all states, all symbols and all histories", "why_tests_cant": "a frame property over all states", "anchors": ["expreduce/evalstate.go: Define Clear MarkSeen", "expreduce/definition_map.go"]}
{"id": "C31", "title": "Attributes round-trip", "statement": "Reading the attributes of a symbol after setting them returns exactly the set of known attributes that was given, sorted and without duplicates; unknown names are ignored.", "quantifier": "all lists of attribute names", "why_tests_cant": "all subsets, orders and duplications", "anchors": ["expreduce/atoms/ex_symbol.go: StringsToAttributes AttrsToStrings"]}
{"id": "C32", "title": "Module variables are fresh", "statement": "Each evaluation of Module renames its local variables to names that are not defined before, that are pairwise distinct, and $ModuleNumber strictly increases, so two evaluations never share a local variable.", "quantifier": "all definition states and all histories of Module evaluations", "why_tests_cant": "freshness against every state and every history", "anchors": ["expreduce/builtin_system.go: Module snagUnique"]}
{"id": "C33", "title": "Concurrent definitions do not lose updates", "statement": "When several goroutines (ParallelTable) define different rules for the same symbol, every definition that was made is present afterwards, as if they ran one after another.", "quantifier": "all interleavings of the read-modify-write steps of all goroutines", "why_tests_cant": "schedule-dependent; a test sees a handful of interleavings", "anchors": ["expreduce/evalstate.go: Define", "expreduce/definition_map.go: Get Set LockKey", "expreduce/builtin_list.go: ParallelTable"]}
{"id": "C34", "title": "Held arguments are not evaluated", "statement": "For a head with HoldFirst / HoldRest / HoldAll / HoldAllComplete exactly the held argument positions are passed on unevaluated and all the other positions are evaluated, left to right.", "quantifier": "all heads, attribute sets and argument lists", "why_tests_cant": "all attribute combinations, lengths and evaluator behaviours", "anchors": ["expreduce/eval.go: evalExpression"]}
{"id": "C35", "title": "Sequence and Flat splicing", "statement": "Arguments with head Sequence are spliced in place: the result has, in order, exactly the arguments of the sequences and the other arguments, with no remaining Sequence at the top level produced by one splice unless it was nested; splicing is the identity when there is none. For a Flat head nested occurrences of the head are merged likewise.", "quantifier": "all argument lists", "why_tests_cant": "arbitrary lists", "anchors": ["expreduce/eval.go: mergeSequences evalExpression"]}
{"id": "C36", "title": "Listable functions thread over lists", "statement": "If all list arguments of a Listable function have the same length n, evaluation produces a list of n applications where the i-th has the i-th element of every list argument and the unchanged non-list arguments; without list arguments or with different lengths nothing is threaded.", "quantifier": "all argument lists", "why_tests_cant": "arbitrary numbers and lengths of list arguments", "anchors": ["expreduce/builtin_list.go: threadExpr", "expreduce/eval.go: evalExpression"]}
{"id": "C37", "title": "And/Or/Not obey Boolean logic and short-circuit", "statement": "And (Or) returns False (True) as soon as an argument evaluates to it and evaluates no later argument; with all arguments evaluating to True (False) it returns True (False); undecided arguments are kept in order.", "quantifier": "all argument lists and all evaluators, including side effects", "why_tests_cant": "needs every position of the deciding argument and every evaluator", "anchors": ["expreduce/builtin_boolean.go: And Or Not"]}
{"id": "C38", "title": "If/Which/Switch select exactly one branch", "statement": "If evaluates and returns only the branch selected by the condition; Which returns the value of the first True condition and evaluates nothing after it; Switch returns the value for the first matching form.", "quantifier": "all conditions, branches and evaluators", "why_tests_cant": "branches not taken must have no effect, for every program", "anchors": ["expreduce/builtin_flowcontrol.go: If Which Switch"]}
{"id": "C39", "title": "Iterators cover their range in order", "statement": "An iterator {i,a,b,s} with positive step visits exactly a, a+s, ..., up to and including the last value <= b; several iterators visit the full cartesian product with the last one varying fastest. A negative step should count downwards.", "quantifier": "all integer bounds and steps and any number of iterators", "why_tests_cant": "unbounded ranges and nesting", "anchors": ["expreduce/iterspec/iterspec.go: iterSpecRange MultiIterSpec"]}
{"id": "C40", "title": "Iterator variables are restored", "statement": "After Table/Do/Sum finish, the iteration variable has the value (or lack of value) it had before, for every way the loop ends.", "quantifier": "all definition states and all loop bodies, including early Return", "why_tests_cant": "all exits from the loop in all states", "anchors": ["expreduce/iterspec/iterspec.go: TakeVarSnapshot RestoreVarSnapshot EvalIterationFunc", "expreduce/builtin_flowcontrol.go: Do"]}
{"id": "C41", "title": "Part extracts the addressed element", "statement": "e[[i]] with 1<=i<=n is the i-th argument, with -n<=i<=-1 the i-th from the end, e[[0]] the head; every other integer index leaves the expression unevaluated; e[[All]] maps over the arguments.", "quantifier": "all expressions and all integers i", "why_tests_cant": "out-of-range indices beyond 64 bits behave differently from small ones", "anchors": ["expreduce/builtin_list.go: applyIndex validateIndex Part"]}
{"id": "C42", "title": "Set operations on lists", "statement": "Union contains each element of the arguments exactly once, Intersection exactly the elements present in all, Complement exactly those of the first absent from the rest; DeleteDuplicates keeps the first occurrence of each element in order.", "quantifier": "all lists (up to the engine's hash equality of elements)", "why_tests_cant": "all lists and all multiplicities", "anchors": ["expreduce/builtin_list.go: Union Complement Intersection DeleteDuplicates"]}
{"id": "C43", "title": "List surgery: Join, Reverse, Append, Prepend", "statement": "Join concatenates the arguments of expressions with equal heads in order; Reverse reverses and is an involution; Append/Prepend add one element at the end/start; lengths add up.", "quantifier": "all lists", "why_tests_cant": "all lists", "anchors": ["expreduce/builtin_list.go: Join Reverse Append Prepend"]}
{"id": "C44", "title": "Padding", "statement": "PadRight/PadLeft[l,n,x] have length exactly n, agree with l on the overlap (aligned left / right), and are x elsewhere.", "quantifier": "all lists, all n>=0 and all paddings", "why_tests_cant": "all lengths, including truncation", "anchors": ["expreduce/builtin_list.go: PadRight PadLeft"]}
{"id": "C45", "title": "Flatten", "statement": "Flatten[e] removes exactly the nested occurrences of the head, to the given depth, and keeps all other elements in order; Flatten with unlimited depth leaves no argument with that head and is idempotent.", "quantifier": "all expressions and all depths", "why_tests_cant": "arbitrary nesting", "anchors": ["expreduce/builtin_expression.go: flattenExpr Flatten"]}
{"id": "C46", "title": "Mapping at levels", "statement": "Map/Apply-style functions with a level specification visit exactly the subexpressions whose level (and depth) lies in the specification; for pure level specifications the optimised traversal agrees with the general one.", "quantifier": "all expressions and level specifications", "why_tests_cant": "arbitrary trees, positive and negative levels", "anchors": ["expreduce/builtin_functional.go: parseLevelSpec expressionWalkMap expressionWalkMapBackwards levelSpecFunction"]}
{"id": "C47", "title": "Throw unwinds to the nearest Catch", "statement": "Catch[e] returns the thrown value if evaluating e throws, and the value of e otherwise; after Catch no exception is pending; after a Throw no later argument of any enclosing function is evaluated.", "quantifier": "all programs", "why_tests_cant": "all nesting depths and positions of the Throw", "anchors": ["expreduce/builtin_system.go: Catch Throw", "expreduce/eval.go: evalExpression"]}
{"id": "C48", "title": "Evaluation results do not go stale", "statement": "Re-evaluating a stored expression after one of the symbols it mentions has changed gives the value under the new definitions; reading a variable never changes its definition.", "quantifier": "all histories of definitions and evaluations", "why_tests_cant": "depends on history: the cached hash of an earlier evaluation", "anchors": ["expreduce/eval.go: evalExpression evalSymbol", "expreduce/atoms/ex_expression.go: EvaledHash"]}
{"id": "C49", "title": "Distributing products over sums preserves value", "statement": "Expanding a product over sums (Distribute / Expand) yields the list of all combinations choosing one summand from each factor, in order, and the sum of the products equals the product of the sums under every valuation.", "quantifier": "all lists of sums and all valuations", "why_tests_cant": "cartesian products of unbounded size", "anchors": ["expreduce/builtin_manip.go: distribute Distribute"]}
{"id": "C50", "title": "Dimensions, Transpose and Dot on matrices", "statement": "For a full rectangular array Dimensions gives its shape and Transpose swaps rows and columns (and is an involution); Dot of an h*m and an m*w matrix is the h*w matrix of the row-by-column sums of products. On ragged arrays Dimensions must report only the levels at which all parts agree. VectorQ and MatrixQ recognise among full arrays exactly those of one and of two levels.", "quantifier": "all nested lists of any shape", "why_tests_cant": "ragged shapes and all sizes", "anchors": ["expreduce/builtin_matrix.go: dimensions Dot Transpose calcIJ"]}
{"id": "C51", "title": "Pure function application", "statement": "Applying Function[body] to arguments replaces #i by the i-th argument in the body but not inside nested Functions; Function[x,body] replaces x by the argument; slots beyond the arguments stay.", "quantifier": "all bodies and argument lists", "why_tests_cant": "arbitrary bodies, nested functions, and arguments which themselves contain slots", "anchors": ["expreduce/eval.go: evalFunction", "expreduce/replace.go: replaceAll"]}
{"id": "C52", "title": "Input history", "statement": "After each top-level evaluation $Line is one larger, In[k] and Out[k] hold the k-th input and output for every earlier k.", "quantifier": "all sessions", "why_tests_cant": "an invariant over all sessions", "anchors": ["expreduce/evalstate.go: ProcessTopLevelResult"]}
{"id": "C53", "title": "Parser name resolution and infix chains", "statement": "Parsing resolves an unqualified symbol to the first context on $ContextPath in which it is defined and otherwise to the current context; chains of the same infix operator become one flat expression and chains of mixed comparisons one Inequality expression with alternating operands and operators.", "quantifier": "all symbol tables, context paths, and chains of operators of any length", "why_tests_cant": "all chains and all symbol tables", "anchors": ["expreduce/parser/interp.go: addContextAndDefine fullyAssoc convertToInequality removeParens"]}
{"id": "C54", "title": "Printing in FullForm is unambiguous", "statement": "The FullForm text of an expression made of symbols, integers and compound expressions determines the expression; strings should be printed so that reading them back gives the same string.", "quantifier": "all expressions", "why_tests_cant": "injectivity over all pairs of trees", "anchors": ["expreduce/atoms/ex_expression.go: StringForm", "expreduce/atoms/ex_string.go: StringForm"]}
{"id": "C55", "title": "FoldList, NestList and Array", "statement": "FoldList[f, x, h[a1,...,an]] is h with the n+1 successive values of the left fold; NestList[f, x, n] lists the n+1 iterates of f on x; Array[f, n] lists f[1], ..., f[n].", "quantifier": "all functions, start values, lists and counts", "why_tests_cant": "lists and counts of every length", "anchors": ["expreduce/builtin_functional.go: FoldList NestList Array"]}
{"id": "C56", "title": "Infix arithmetic keeps its meaning", "statement": "The expression read from infix arithmetic text (sums, products, differences, quotients, negation, parentheses) has, under every valuation of its other sub-expressions, the value that the arithmetic denotes when grouped as written.", "quantifier": "all syntax trees and all valuations in commutative semirings with a negative unit and inverses", "why_tests_cant": "every nesting of operators and every valuation", "anchors": ["expreduce/parser/interp.go: fullyAssoc parserExprConv removeParens"]}
{"id": "C57", "title": "MemberQ, Cases and DeleteCases agree with MatchQ", "statement": "Cases[h[...], p] lists, in order, exactly the elements e with MatchQ[e, p]; DeleteCases[h[...], p] is h with exactly the other elements, in order; MemberQ[h[...], p] is True iff some element matches; Cases with a rule lists the right-hand side with the bindings of each matching element filled in. Known exception (proved): a delayed rule :> is treated as a pattern.", "quantifier": "all lists, heads, patterns and attribute environments", "why_tests_cant": "every list length and every pattern", "anchors": ["expreduce/builtin_list.go: memberQ MemberQ Cases DeleteCases"]}
{"id": "C58", "title": "Length, LeafCount and Depth", "statement": "Length is the number of arguments, LeafCount the number of positions (heads included) holding an atom, Depth one more than the largest number of indices needed to reach a part through arguments.", "quantifier": "all expressions", "why_tests_cant": "trees of every shape and size", "anchors": ["expreduce/builtin_expression.go: calcDepth leafCount Length LeafCount Depth"]}
{"id": "C59", "title": "Chains of SameQ and UnsameQ", "statement": "SameQ[e1,...,en] is True iff every ei is the same as e1; UnsameQ[e1,...,en] is True iff no two arguments are the same; neither depends on the order of the arguments (known exception, proved: machine reals, whose SameQ has a tolerance and is not transitive).", "quantifier": "all argument lists", "why_tests_cant": "all lengths and all permutations", "anchors": ["expreduce/builtin_comparison.go: SameQ UnsameQ"]}
{"id": "C60", "title": "DownValues shows and restores the definitions of a function", "statement": "DownValues[f] lists exactly the current definitions for f[...] in the order in which they are tried; an assigned list reads back (with :>); DownValues[g] = DownValues[f] makes every call of g find the same right-hand side as the call of f and changes nothing else. Known exception (proved): a value of the symbol itself is lost when the list is assigned back.", "quantifier": "all states, symbols and sequences of definitions", "why_tests_cant": "ranges over all definition histories", "anchors": ["expreduce/builtin_system.go: DownValues", "expreduce/evalstate.go: defineDownValues"]}
{"id": "C61", "title": "With substitutes its variables in the body", "statement": "With[{x1=v1,...}, body] has the value of body with the unevaluated vi in place of every xi, simultaneously. Known exceptions (proved): the variables are replaced one after the other, so a value containing a later variable is changed; inner scopes are not renamed.", "quantifier": "all bodies, variables, values and states", "why_tests_cant": "every body and every nesting", "anchors": ["expreduce/builtin_flowcontrol.go: applyWithFn With", "expreduce/replace.go: rulesReplaceAll"]}
{"id": "C62", "title": "Strings: join, length, take", "statement": "StringJoin of strings is their concatenation (associative, \"\" is the unit), stays unevaluated exactly when some argument is not a string, and its StringLength is the sum of the lengths; StringTake[s,{i,j}] with 1<=i, j<=length returns exactly the bytes i..j (\"\" when j<i) and is unevaluated out of range; taking {1,k} and {k+1,n} and joining restores s. Known exceptions (proved): lengths and positions count bytes, so StringLength equals the number of characters exactly for ASCII text and StringTake can split a character; indices are reduced modulo 2^64 instead of being rejected.", "quantifier": "all strings, all argument lists, all index pairs", "why_tests_cant": "every string of every length and every index", "anchors": ["expreduce/builtin_string.go: StringJoin, StringLength, StringTake"]}
{"id": "C63", "title": "StringReplace replaces leftmost non-overlapping occurrences", "statement": "StringReplace[s, old->new] with non-empty old returns the unique string obtained by replacing occurrences from the left without overlaps and without searching inserted text; it is the identity when old does not occur or old = new; with old = \"\" the new text is inserted before the first and after every character. With an empty pattern the new text is written around every UTF-8 character, a byte that belongs to none counting as a character.", "quantifier": "all strings s, old, new", "why_tests_cant": "every string and every overlap pattern", "anchors": ["expreduce/builtin_string.go: StringReplace"]}
{"id": "C64", "title": "ExportString[..., \"Base64\"] can be decoded", "statement": "ExportString[s,\"Base64\"] is a well-formed Base64 text (RFC 4648 alphabet, padding, length) followed by one newline, decoding it gives the bytes of s back, and different strings have different encodings; other formats give $Failed and non-strings stay unevaluated.", "quantifier": "all strings (all byte sequences) and format names", "why_tests_cant": "every byte sequence of every length", "anchors": ["expreduce/builtin_string.go: ExportString"]}
{"id": "C65", "title": "Arithmetic printed in InputForm is read back with the same value", "statement": "ToString[e, InputForm] of an arithmetic expression (integers, rationals, symbols, Plus, Times, Power, lists, ordinary function calls) is a text that the usual operator grammar reads in exactly one way, and the expression read has the same value as e under every interpretation of the symbols and functions. Known exceptions (all proved): negative integer bases ((-1)^x prints -1^x), a base or exponent that is a product with a denominator (x^(y/2) prints x^(y)/(2)), numerators/exponents congruent to 1/-1 modulo 2^64, unevaluated products with several numbers, compound heads ((a+b)[x] prints a + b[x]).", "quantifier": "all arithmetic expressions of every size and nesting, all interpretations", "why_tests_cant": "every nesting of sums, products, powers and calls", "anchors": ["expreduce/builtin_arithmetic.go: splitFrac, Plus/Times toString", "expreduce/builtin_power.go: Power toString", "expreduce/string.go: toStringInfix", "expreduce/parser/parens/parens.go: NeedsParens"]}
{"id": "C66", "title": "IntegerDigits and FromDigits are inverse", "statement": "For every integer n and base b >= 2, IntegerDigits[n, b] terminates and returns the unique list of digits in [0, b) without a leading zero whose positional value is |n| ({} for 0); FromDigits[ds, b] is the positional value of ds, so FromDigits[IntegerDigits[n, b], b] = |n|.", "quantifier": "all integers n (any size), all bases b >= 2, all digit lists", "why_tests_cant": "the digit loop runs an unbounded number of iterations over unbounded integers; tests sample a few numbers", "anchors": ["expreduce/resources/numbertheory.m: IntegerDigits, FromDigits"]}
{"id": "C67", "title": "FactorInteger on all integers and rationals", "statement": "FactorInteger[x] for a nonzero integer or reduced rational x other than 1 terminates and returns {p, k} pairs with strictly increasing first components, each p prime (or {-1, 1} once, exactly for negative x), k positive for integers and nonzero for rationals, and the product of p^k is x.", "quantifier": "all integers and all rationals in lowest terms", "why_tests_cant": "trial division, Tally, Sort and DeleteCases are combined for unbounded inputs", "anchors": ["expreduce/resources/numbertheory.m: FactorInteger", "expreduce/resources/list.m: Tally", "expreduce/builtin_sort.go: Sort"]}
{"id": "C68", "title": "EulerPhi counts the coprime residues", "statement": "For every nonzero integer n, EulerPhi[n] terminates and equals the number of integers in 1..|n| that are coprime to n; EulerPhi[0] is 0.", "quantifier": "all integers", "why_tests_cant": "the product formula agrees with the count only by a number-theoretic argument over all n", "anchors": ["expreduce/resources/numbertheory.m: EulerPhi"]}
{"id": "C69", "title": "Memoised Fibonacci is independent of the call history", "statement": "Whatever sequence of Fibonacci calls has been evaluated before, Fibonacci[n] for n >= 0 terminates and returns the n-th Fibonacci number.", "quantifier": "all n >= 0 and all histories of earlier calls (each stores definitions)", "why_tests_cant": "the function stores its results as new definitions, so every call depends on the history of the session", "anchors": ["expreduce/resources/numbertheory.m: Fibonacci"]}
{"id": "C70", "title": "GCD, LCM, Mod and integer/fractional part of rationals", "statement": "GCD of any list of integers and rationals is the nonnegative generator of their integer combinations, whichever pair the Orderless matcher picks at each step; LCM of nonzero integers is a common multiple dividing every common multiple; Mod[x, c] for rational x lies in [0, |c|) and differs from x by a multiple of c; IntegerPart and FractionalPart truncate toward zero and add up to x. EvenQ, OddQ and Sign decide divisibility by 2 and the sign of any exact number.", "quantifier": "all argument lists, all rationals, every choice of the matcher", "why_tests_cant": "rules fire in matcher-dependent order on unbounded rationals", "anchors": ["expreduce/resources/numbertheory.m: GCD, LCM, Mod, FractionalPart, IntegerPart", "expreduce/builtin_numbertheory.go: GCD, Mod"]}
{"id": "C71", "title": "Simplify of a Boolean formula keeps its truth value and terminates", "statement": "Every rule Simplify and the Boolean functions apply to a formula built from And, Or, Not, Xor, Nand, Nor, Implies, True and False rewrites it to a formula with the same truth value under every assignment of truth values to the atoms; repeated rewriting stops; a formula rewritten to True is valid and one rewritten to False is unsatisfiable.", "quantifier": "all formulas, all assignments to atoms, all rules and all places inside the formula where one is applied, all rewriting sequences", "why_tests_cant": "There are infinitely many formulas and the rewriting order depends on the canonical order of the atoms; truth preservation must hold for every one.", "anchors": ["expreduce/resources/simplify.m", "expreduce/resources/boolean.m"]}
{"id": "C72", "title": "Inverse of a small matrix is its inverse", "statement": "When Inverse[m] of a 1x1, 2x2 or 3x3 matrix gives a matrix, the product of m with it (on either side) is the identity matrix, in every field and for every value of the symbols in it for which the determinant is not zero.", "quantifier": "all entries, all fields, all valuations with non-zero determinant", "why_tests_cant": "The formulas are rational functions of up to nine symbols; a sign or an index error shows only for particular entries.", "anchors": ["expreduce/resources/matrix.m"]}
{"id": "C73", "title": "PolynomialQuotient and PolynomialRemainder divide", "statement": "For polynomials a and b with b not 0, a = q b + r where q and r are the two answers, the degree of r is smaller than that of b, and q and r are the only such polynomials.", "quantifier": "all polynomials over all fields", "why_tests_cant": "The loop has an iteration limit of 20: every test of smaller degree passes, larger degrees give a remainder that is too big.", "anchors": ["expreduce/resources/power.m"]}
{"id": "C74", "title": "PolynomialGCD is a greatest common divisor and SquareFreeQ detects square factors", "statement": "The polynomials dividing PolynomialGCD[a, b] are exactly those dividing both a and b; SquareFreeQ[f] is True exactly when no square of a non-constant polynomial divides f.", "quantifier": "all univariate polynomials over fields of characteristic 0", "why_tests_cant": "Correctness depends on the invariant of the remainder sequence over unboundedly many polynomials, and on the iteration limit never being reached.", "anchors": ["expreduce/resources/power.m"]}
{"id": "C75", "title": "Module: local variables start with the values of their initialisers, evaluated in the outer scope", "statement": "When the body of Module[{x, y = v, z := w}, body] starts, the new variable for x has no value, that for y has the value of v, that for z has w unevaluated; v is evaluated in the scope outside the Module; body refers to the new variables in place of x, y, z and is otherwise unchanged; no other definition has changed (except $ModuleNumber) when the initialisers have no side effects.", "quantifier": "all states, lists of locals, initialisers and bodies", "why_tests_cant": "ranges over all definition states and all nestings of initialisers", "anchors": ["expreduce/builtin_system.go: applyModuleFn snagUnique"]}
{"id": "C76", "title": "Expand and Multinomial keep the value", "statement": "Multinomial[k1,...,km] of natural numbers is the integer c with c*k1!*...*km! = (k1+...+km)!. Expand rewrites a positive integer power of a sum and a product with a sum among its factors; every rewriting, wherever it is applied and whichever factors the matcher picks, gives an expression with the same value in every field under every assignment of values to symbols, and where no rewriting applies no positive power of a sum and no product containing a sum is left. The rewritings cannot go on for ever: the number of applications is bounded by a number that depends only on the expression.", "quantifier": "every list of exponents, every sum and exponent, every factorisation the matcher may choose, every field and valuation, every sequence of rewriting steps", "why_tests_cant": "The number of terms grows without bound with the exponent and the number of summands, and the matcher may choose any of several factorisations; tests check a few expansions.", "anchors": ["expreduce/resources/power.m: possibleExponents, genVars, genExpand, expandRules, Expand", "expreduce/resources/combinatorics.m: Multinomial", "expreduce/builtin_combinatorics.go: IntegerPartitions, Permutations"]}
{"id": "C77", "title": "D gives the derivative", "statement": "For every expression built from numbers, symbols, sums, products, powers, Log, Sin, Cos and expressions free of x, D[e, x] gives a result, and at every real point where the expression is regular (positive arguments of logarithms and of non-integer powers, non-zero bases) the value of the result is the derivative of e with respect to x, whichever of the matching rules is used; D of a List and Grad give it element by element.", "quantifier": "every expression, every choice of rule and of the split of a sum or product, every point, every meaning of the functions the rules do not know", "why_tests_cant": "Expressions and points are infinite in number; tests compare a few derivatives symbolically and do not compare them with the limit of difference quotients.", "anchors": ["expreduce/resources/calculus.m: D, Grad"]}
{"id": "C78", "title": "The trigonometric simplifications keep the value", "statement": "Whenever evaluation rewrites a trigonometric, hyperbolic or inverse trigonometric expression (special angles, sign extraction, shifts by Pi/2, Tan/Cot reciprocals, f of its own inverse, TrigExpand, the half-angle rule), the new expression has the same real value as the old one at every assignment of reals where the old one is defined.", "quantifier": "all rule instances (all subexpressions matched) and all real assignments of the variables", "why_tests_cant": "tests compare a few printed forms; equality of real functions ranges over all reals and all subexpressions", "anchors": ["expreduce/resources/trig.m:1-93", "expreduce/resources/simplify.m:38-40,127"]}
{"id": "C79", "title": "ArcTan[x, y] is the polar angle and RotationMatrix is the rotation", "statement": "For exact numbers x, y that are not both zero ArcTan[x, y] is the angle in (-Pi, Pi] of the point (x, y), and Indeterminate at the origin; RotationMatrix[t] turns every point of the plane by t, and RotationMatrix[t, axis] for an axis along x, y or z (either direction) is the right-handed rotation of every vector about that axis.", "quantifier": "all exact numbers, all angles, all real nonzero axes and all vectors", "why_tests_cant": "the quadrants, signs and vectors form an infinite set", "anchors": ["expreduce/resources/trig.m:82-88", "expreduce/resources/trig.m:129-133"]}
{"id": "C80", "title": "Statements run in order, loops stop when they should", "statement": "a; b; ...; z evaluates every statement once, left to right, each in the state left by the one before, and gives the value of the last; a statement whose value is Return[...] ends the sequence with that value and the rest has no effect. While[cond, body] evaluates cond and body alternately, ending with Null when cond is not True or body gives Break[], and with v when body gives Return[v]; Break[] anywhere in the body leaves the loop.", "quantifier": "all programs, states and numbers of rounds", "why_tests_cant": "effects of every statement in every state, any number of rounds", "anchors": ["expreduce/builtin_flowcontrol.go:87-131 While CompoundExpression", "expreduce/resources/flowcontrol.m:111 For"]}
{"id": "C81", "title": "Select keeps exactly the elements that pass, Scan visits every element in order", "statement": "Select[h[x1,...,xn], f] evaluates f[x1], f[x2], ... from left to right, each once and in the state the one before left, and gives h of exactly those xi (in order, with repetitions) for which the result is True; Select[..., f, k] stops calling f as soon as k elements are found and gives those; Scan[f, h[x1,...,xn]] evaluates f[x1], f[x2], ... in order and gives Null, unless one of them gives Return[v], which ends the traversal with v, or throws.", "quantifier": "all lists, all functions f (with side effects on the definitions, with Return or Throw), all limits k, all evaluation states", "why_tests_cant": "f is an arbitrary program; the order and number of its calls for every list and every state is not covered by examples", "anchors": ["/repo/expreduce/builtin_list.go: Select, Scan", "/repo/expreduce/evalstate.go: Eval"]}
{"id": "C82", "title": "FixedPoint and NestWhileList iterate until the stated condition", "statement": "FixedPoint[f, x] repeatedly evaluates f on the last value and gives the first value that is SameQ to the one before it; if consecutive values never are, it does not terminate. NestWhileList[f, e, test, m, max, n] gives {e, f[e], f[f[e]], ...}, where the number of applications is the least one after which the test on the last m (or All) values is not True or max is reached, plus n. Refuted: the test is not applied to the start value, and max = 0 still applies f once.", "quantifier": "all f, x, test, m, max, n and all evaluation states, including runs that never end", "why_tests_cant": "the iteration is unbounded and f and test are arbitrary programs", "anchors": ["/repo/expreduce/builtin_functional.go: FixedPoint, NestWhileList", "/repo/expreduce/resources/functional.m"]}
{"id": "C83", "title": "ReplaceList gives one result for every way the pattern matches", "statement": "ReplaceList[e, lhs -> rhs] is a list; each of its elements is rhs with the names replaced by values under which e is an instance of lhs, and every way in which e is an instance of lhs contributes an element. In particular ReplaceList[{a1,...,an}, {x___, y___} -> rhs] contains rhs for each of the n+1 cuts of the list.", "quantifier": "all expressions, all patterns of the supported fragment, all right hand sides, all lists and cuts", "why_tests_cant": "the set of all matches is exponential in the expression and ranges over all patterns", "anchors": ["/repo/expreduce/builtin_pattern.go: ReplaceList", "/repo/expreduce/matcher/matchq.go: NewMatchIter"]}
{"id": "C84", "title": "ReplacePart replaces exactly the selected positions", "statement": "ReplacePart[e, {pos -> v, ...}]: the part at a position is replaced when a rule matches that position (as a list, or as a number for top level parts) and no rule matches a position above it, by the right hand side of the first matching rule; every other part keeps its head, its number of arguments and, for atoms, its value. Refuted: with i_ -> g[i] every part becomes g[{}] instead of g[its position].", "quantifier": "all expressions, all lists of rules, all positions", "why_tests_cant": "all expressions of all depths and all positions in them", "anchors": ["/repo/expreduce/builtin_replacement.go: replaceParts, ReplacePart", "/repo/expreduce/replace.go: replace"]}
{"id": "C85", "title": "The rules for powers, roots and products of powers keep the value", "statement": "Whenever one of the built-in rules for Power, Sqrt and products of powers rewrites an expression (nested integer powers, powers 0 and of 1, splitting off the integer part of a fractional exponent, distributing an integer power, powers of rational and complex numbers, powers of I, square roots of negative numbers and of products, collecting equal bases, cancelling), the new expression has the same complex value (principal powers) for every value of the symbols, provided nothing involved is 0. Three rules do not: (a^(n/d))^c := a^(n c/d), (k x)^p := k^p x^p for a negative number k, and a^c b^c := (a b)^c for two negative integers.", "quantifier": "every expression a rule applies to, every choice of the factors the rule picks, every nonzero complex value of the symbols", "why_tests_cant": "Branch-cut errors appear only for particular arguments (negative or complex bases); a test evaluates finitely many bases and exponents.", "anchors": ["expreduce/resources/power.m: Power, Sqrt", "expreduce/resources/arithmetic.m: Times"]}
{"id": "C86", "title": "The rules for complex numbers keep the value", "statement": "Every built-in rule for Re, Im, Arg, Abs, Conjugate, Exp, Log of negative integers, ComplexExpand and integer powers of Complex numbers rewrites an expression into one with the same complex value, for every complex value of the symbols. Log[E^p] := p keeps it exactly when -Pi < Im p <= Pi, and Log[1/b] := -Log[a] does not keep it.", "quantifier": "every expression a rule applies to, every choice of terms and factors, every complex value of symbols and of unknown functions", "why_tests_cant": "Tests check finitely many numbers; a sign or branch error in one rule shows up only for particular real and imaginary parts.", "anchors": ["expreduce/resources/atoms.m: Re, Im, realNumberQ", "expreduce/resources/power.m: Arg, Conjugate, ComplexExpand, Exp, Log, Complex[re_,im_]^n_Integer", "expreduce/resources/arithmetic.m: Abs"]}
{"id": "C87", "title": "PowerExpand keeps the value for positive quantities only", "statement": "Each rewriting step of PowerExpand keeps the complex value of the expression when the bases of powers and the arguments of logarithms are products and real powers of positive numbers; for other values it does not (Log[x y] at x = y = -1, Sqrt[x^2] at x = -1).", "quantifier": "every expression a rule of PowerExpand applies to, every positive value of the symbols", "why_tests_cant": "The claim ranges over all real values and all shapes of products; tests only compare output forms.", "anchors": ["expreduce/resources/power.m: PowerExpand"]}
{"id": "C88", "title": "Solve's formulas give exactly the roots of polynomials and linear systems", "statement": "For every polynomial equation of degree 2, 3 or 4 in one variable with complex coefficients (leading coefficient not zero), the list of solutions Solve returns from its closed formulas contains exactly the complex numbers at which the equation holds; the two closed forms for a pair of linear equations give the only solution whenever the determinant is not zero.", "quantifier": "all complex values of the coefficients and of the unknown", "why_tests_cant": "The formulas are rational expressions with nested complex roots; tests compare a few printed solutions and never evaluate the formula over all coefficient values, in particular where an inner expression vanishes.", "anchors": ["expreduce/resources/equationdata.m: solveQuadratic, solveCubic, solveQuartic", "expreduce/resources/solve.m: solveQuartic, Solve (linear systems)"]}
{"id": "C89", "title": "Solving for a variable that occurs once finds exactly the solutions", "statement": "When a variable occurs once in an equation, under sums, products with non-vanishing coefficients and powers -1, 2, 3, 4, 5, the solutions Solve finds by undoing these operations one by one are free of the variable, and a value of the variable satisfies the equation if and only if it is the value of one of the solutions. The inverses used for b^x, Log, Abs, roots, Sin, Cos, Tan, Sec and Csc give exactly the solutions of one such equation.", "quantifier": "all equations of that shape, all complex (trigonometric functions: real) values of the other symbols", "why_tests_cant": "Nesting depth, choice of functions and the values of parameters are unbounded; principal-branch mistakes show only at particular complex values.", "anchors": ["expreduce/resources/solve.m: applyInverse, isolate, countVar", "expreduce/resources/power.m: PowerExpand"]}
{"id": "C90", "title": "A call of a function defined by rules runs the first definition that applies, with the arguments substituted", "statement": "After definitions f[pattern] := body (patterns made of literals, _, x_, x_h, and function applications that may nest, e.g. f[0], f[n_], f[{x_, y_Integer}]), a call f[a1, ..., ak] first evaluates the arguments that are not held, then goes through the definitions in their stored order and takes the first one whose left-hand side the call fits and whose /; conditions all evaluate to True; the call has the value of the body with each variable replaced by the part of the call it stands for. Whether an expression fits such a pattern, and what the variables stand for, is determined uniquely. If no definition applies the call evaluates to itself with evaluated arguments. If the body becomes Return[w], the call gives w. In particular the usual recursive definition of the factorial gives n! for every n >= 0. (Refuted: the value of a call is not always evaluated: after f[x_] := Return[x + 1], f[2] gives the unevaluated 2 + 1.)", "quantifier": "all function symbols, lists of definitions, left-hand sides of the described form, bodies, conditions, argument lists, interpreter states, all n for the factorial", "why_tests_cant": "the rule selection depends on every combination of pattern, argument, condition outcome and order of definitions, and the recursion depth is unbounded", "anchors": ["expreduce/evalstate.go: GetDef", "expreduce/eval.go: Eval", "expreduce/matchq.go: newMatchIter", "expreduce/replace.go: ReplacePD"]}
{"id": "C91", "title": "ParallelTable gives the same list under every schedule when its bodies have no side effects", "statement": "ParallelTable[body, {x, ...}, ...] forms one expression for every combination of iterator values (the last iterator varying fastest) by replacing the variables in the body, without assigning them, and evaluates each in its own goroutine on the shared interpreter state. If the evaluation of no instance changes the state, then however the goroutines are interleaved, every complete execution returns the list of the values of the instances in order and leaves the state unchanged; no schedule runs forever and every partial schedule can be completed. (Refuted: that it agrees with Table for every body: after g[1] := i, Table[g[1], {i, 2}] is {1, 2} and ParallelTable[g[1], {i, 2}] is {i, i}; that the result does not depend on the schedule when the body uses Table: ParallelTable[Table[j, {j, 2}], {i, 2}] can give {{2, 2}, {1, 2}} because the goroutines share the variable j.)", "quantifier": "all bodies, iterator lists with distinct variables, interpreter states and schedules of the goroutines", "why_tests_cant": "the number of interleavings is unbounded and the Go scheduler does not exercise them on demand", "anchors": ["expreduce/builtin_list.go: ParallelTable", "expreduce/iterspec/iterspec.go: CurrentPDManager, Next", "expreduce/eval.go: Eval"]}
{"id": "C92", "title": "ReplaceRepeated applies the rules until nothing changes", "statement": "e //. rules evaluates to the first member of the sequence e, e /. rules, (e /. rules) /. rules, ... that is SameQ to its predecessor: the result is an expression the rules leave alone. If no member repeats, the evaluation does not end. For a rule x -> v whose left-hand side does not occur in e /. x -> v, e //. x -> v and e /. x -> v agree.", "quantifier": "every expression, every rule or list of rules, every interpreter state, every length of the sequence of replacements", "why_tests_cant": "The number of replacement rounds has no bound and each round runs the evaluator on arbitrary expressions; non-termination can not be observed by a test.", "anchors": ["expreduce/builtin_replacement.go ReplaceRepeated", "expreduce/resources/replacement.m Attributes[ReplaceRepeated]"]}
{"id": "C93", "title": "Graphics are drawn as written, with lexically scoped directives", "statement": "Rendering Graphics[p, ...] yields one series per Line of p in reading order, with exactly the points given, in the style determined by the Directives that precede the Line in its own list and in the lists around it (for each property the last one wins; a colour resets the opacity); a nested list leaves no trace on what follows it; rendering fails exactly when some list, line or directive that is reached is malformed.", "quantifier": "every expression, of any nesting depth and length, and every conversion of colour levels", "why_tests_cant": "Nesting of lists and directives is unbounded; the repository only renders a few plots.", "anchors": ["expreduce/graphics/graphics.go Render", "expreduce/graphics/graphics.go renderPrimitive", "expreduce/graphics/graphics.go setDirective"]}
{"id": "C94", "title": "WriteString appends to the stream named, and only to it", "statement": "WriteString to OutputStream[\"stdout\", 1] (or \"stdout\") and OutputStream[\"stderr\", 2] appends exactly the given text to that stream and leaves the other alone; after any sequence of calls each stream has received the concatenation, in call order, of the texts sent to it; Streams[] lists the two streams; a call that denotes no open stream changes nothing.", "quantifier": "every sequence of calls, every text, every stream argument", "why_tests_cant": "Histories of calls and texts are unbounded; the repository tests only Streams[].", "anchors": ["expreduce/streammanager/streammanager.go WriteString", "expreduce/streammanager/streammanager.go fillMissingIndex", "expreduce/builtin_system.go parseOutputStream", "expreduce/builtin_system.go WriteString"]}
{"id": "C95", "title": "Names lists exactly the defined symbols a filter describes, sorted", "statement": "Names[filter] is the strictly sorted list of exactly those defined symbol names that the filter describes (\"*\" stands for any text on a line, other characters for themselves); Names[] lists all.", "quantifier": "every set of defined names, every filter without regular-expression characters", "why_tests_cant": "The set of definitions and the filters are unbounded.", "anchors": ["expreduce/builtin_system.go Names"]}
{"id": "C96", "title": "Assignment and counters: x = e, x++, x--, ++x, --x, x += e, x -= e", "statement": "x = e evaluates e once, gives x that value and changes nothing else; its result is the value. For an integer variable x with value k: x++ and x-- give k, ++x and --x give the new value, and x is k+1 resp. k-1 afterwards; x += e and x -= e evaluate e first (which may change x) and then add it to, subtract it from, the value x has at that moment. Not so: with a real variable x++ can give another number than the value of x, and x++ on a symbol without a value never returns.", "quantifier": "all variables outside System`, all integer values, all right-hand sides and the states their evaluation leads to, all states in which the library definitions are in force", "why_tests_cant": "tests increment one variable from 3 to 4; the claim is for every value and for operands with side effects, and needs the absence of hash coincidences to be made explicit", "anchors": ["expreduce/resources/arithmetic.m: Increment, Decrement, PreIncrement, PreDecrement, AddTo, SubtractFrom", "expreduce/builtin_system.go: Set", "expreduce/evalstate.go: Define"]}
{"id": "C97", "title": "For loops", "statement": "For[beg, cond, incr, expr] evaluates beg once and then, as long as cond gives True, expr followed by incr, in this order, each round in the state the one before left; it gives Null, or v as soon as expr gives Return[v] (incr is then not evaluated). In particular, with s = 0, For[i = 0, i < n, i++, s += i] gives Null and leaves i = n and s = n(n-1)/2, for every n up to 2^53, and changes no other symbol.", "quantifier": "all loop headers and bodies and all finite sequences of rounds; the sample program for all n", "why_tests_cant": "the number of rounds is unbounded; tests run a handful", "anchors": ["expreduce/resources/flowcontrol.m: For", "expreduce/builtin_flowcontrol.go: While, CompoundExpression"]}
{"id": "C98", "title": "Packages and contexts: BeginPackage, EndPackage, Begin, End", "statement": "A file BeginPackage[\"p`\"]; ...; EndPackage[] whose middle consists of inputs and of Begin[...] ... End[] blocks gives $Context back its value and puts p` in front of $ContextPath; it forgets no symbol and creates only symbols of p`, of the contexts its blocks enter, or spelled out in full, so loading it cannot create or capture symbols of the session. Inside it a plain name means a symbol of p`, System` or the block's context, never of the session's context; after it a plain name means the package's symbol if there is one and otherwise what it meant before, and never a symbol of a private context. Loading packages one after another stacks them on the path. Not so: Begin blocks do not nest (the outer End[] returns to the outer block's context), a package inside a package, or a stray EndPackage[], leaves $Context without a string and the whole language unreadable.", "quantifier": "all sessions in which System` is visible, all package contexts and bodies of any length with any number of blocks, all names", "why_tests_cant": "there are no tests of packages beyond loading the built-in ones; the claim is about every body and every session and about what does not happen", "anchors": ["expreduce/resources/system.m: BeginPackage, EndPackage, Begin, End", "expreduce/interp.go: addContextAndDefine", "expreduce/evalstate.go: GetStringDef, GetListDef"]}
{"id": "C99", "title": "Interrupting an evaluation", "statement": "Without an interrupt the evaluator behaves as if there were none. When the user interrupts (Ctrl-C), a While loop ends with $Aborted at the end of the round in which the interrupt arrives, whatever its condition; a call of a user-defined function whose definition applies (with a compound body) gives $Aborted without running the body, so runaway recursion ends; a variable with a value gives $Aborted. An input that ends without an exception clears the interrupt; one that ends with an uncaught exception shows it in Hold and clears the exception. Not so: the statements after an interrupted one are still run, with $Aborted in place of the values of variables, and assign it to other variables; x := y; y := x; x cannot be interrupted at all; and if the interrupted input threw an exception the interrupt stays pending and the next, innocent input gives $Aborted.", "quantifier": "all moments of the interrupt (as a function of the state of the evaluation), all loops, definitions and states", "why_tests_cant": "the moment of a signal is chosen by the environment; there is no test of interrupts", "anchors": ["expreduce/eval.go: tryReturnValue, evalExpression, evalSymbol", "expreduce/builtin_flowcontrol.go: While", "expreduce/evalstate.go: NewEvalState, IsInterrupted, ProcessTopLevelResult"]}
{"id": "C100", "title": "Saved definitions come back", "statement": "Save[\"file\", {\"s1\", ...}] followed by Get[\"file\"], in the same or another session, gives each saved symbol exactly the rules, attributes and default value it had when saved and leaves every other symbol alone; a Save call with an unknown symbol or a malformed argument stays unevaluated and writes nothing; a missing file gives $Failed. False of the code: a symbol implemented by the program loses its implementation, Save answers Null even when the file cannot be created, and a same-named file in a $Path directory is read instead of the one just saved.", "quantifier": "all definition states of the saving and the loading session, symbol lists, file systems and search paths", "why_tests_cant": "a test saves a few symbols into one directory; the claim ranges over all definition states, both sessions and all file-system contents", "anchors": ["expreduce/builtin_system.go: Save Get tryReadFile encodedDef", "pkg/expreduceapi/cas.go: Def", "expreduce/evalstate.go: SetDefined GetDefined"]}
{"id": "C101", "title": "Running a text as a program", "statement": "A script (script file, Get, -initfile) runs its statements one after another, each read in the state left by its predecessors, up to the end of the text or the first syntax error; its value is that of the last statement (Null if none), and it ends if its statements do; ReadList gives the list of all values. In an interactive session that does not itself assign In, Out or $Line, the result printed with label Out[k] is exactly what Out[k] gives later, and every non-Null result is printed. False of the code: a syntax error with fewer than 100 unread bytes crashes the program; after an assignment to $Line the printed label is not the one the result is stored under.", "quantifier": "all texts, parsers that consume input, evaluators, sessions of any length", "why_tests_cant": "a claim about all scripts and sessions of any length, including where an error stands", "anchors": ["expreduce/easyrun.go: EvalInterpMany ReadList", "expreduce/parser/interp.go: InterpBuf ReplaceSyms Interp", "expreduce.go: interactiveSession printFormattedOutput", "expreduce/evalstate.go: ProcessTopLevelResult"]}
{"id": "C102", "title": "Operator expressions printed in InputForm are read back", "statement": "ToString[e, InputForm] (and the string EasyRun returns) of an expression built from symbols, integers, strings, patterns, lists, calls, parts, logical operators, comparisons, rules, assignments, replacements, string joins, sums, products and powers is read back by the parser as exactly e and as nothing else, so different expressions have different texts, whatever the operator precedences are. Known exceptions: a repeatable operator applied to fewer than two arguments as first operand of itself (And[And[x], y] prints as And[x] && y), Part or a call of an operator expression, named patterns inside operators, powers of three arguments.", "quantifier": "all expressions of the fragment (any depth and width), all precedence tables in which arithmetic binds tightest, == and != bind alike and repeatable operators group to the left", "why_tests_cant": "the placement of parentheses depends on every pair of nested operators and on the precedence table; tests check a few nestings", "anchors": ["expreduce/string.go toStringInfix, toStringInfixAdvanced", "expreduce/parser/parens/parens.go NeedsParens", "expreduce/atoms/ex_expression.go StringForm", "expreduce/builtin_list.go toStringList, toStringPart", "expreduce/builtin_pattern.go", "expreduce/parser/interp.go fullyAssoc, removeParens, parserExprConv"]}
{"id": "C103", "title": "First, Last, Rest and Take select the stated elements", "statement": "First[h[x, ...]] is x, Last[h[..., x]] is x, Rest[h[x, l...]] is h[l...], and Prepend[Rest[e], First[e]] gives e back; on an atom or an expression without arguments the three calls stay unevaluated. Take[e, m] is the expression made of the first m elements and Take[e, {m, n}] of elements m to n, for every length; asking for more elements than there are leaves a Part expression.", "quantifier": "all heads, all argument lists of machine size, all 1 <= m <= n", "why_tests_cant": "The claims range over lists of every length and content; the examples in list.m use a handful of short lists and miss Take[e, 0], Take[e, -m] and steps, which do not work.", "anchors": ["expreduce/resources/list.m 232-234, 337, 351, 365", "expreduce/builtin_list.go applyIndex, validateIndex, Part"]}
{"id": "C104", "title": "Total, Mean, Count and Tally", "statement": "Total of a list of exact numbers is their sum in lowest terms, independent of their order; Mean is that sum divided by the number of elements; Count[e, p] is the number of elements that match p; Tally lists every different element of a list of symbols, strings and integers once, with the number of its occurrences.", "quantifier": "all lists of integers and rationals; all expressions and patterns; all lists of simple atoms without hash collisions", "why_tests_cant": "Sums and counts have to be right for every list, including fractions that cancel and repeated elements in any arrangement.", "anchors": ["expreduce/resources/list.m 10, 22, 428, 442", "expreduce/builtin_list.go countFunctionLevelSpec, Count, DeleteDuplicates", "expreduce/builtin_arithmetic.go Plus, Times"]}
{"id": "C105", "title": "Fold and Nest", "statement": "Fold[f, x, h[a1, ..., an]] is f[... f[f[x, a1], a2] ..., an], Fold[f, h[x, a1, ..., an]] is the same starting with the first element, and Nest[f, x, n] is f applied n times to x.", "quantifier": "all functions, start values, lists and all n >= 0 of machine size", "why_tests_cant": "The nesting has to be right for lists of every length; the tests use two or three elements, and miss empty lists, negative and huge counts, where the result is wrong.", "anchors": ["expreduce/resources/functional.m 141, 155-156, 179", "expreduce/builtin_functional.go FoldList, NestList"]}
{"id": "C106", "title": "Tuples lists every tuple once, in lexicographic order", "statement": "Tuples[{e1, ..., em}, n] is the list of all choices of n positions, in lexicographic order; so it has m^n elements, contains a tuple exactly when it has n components taken from the list, and has no repetitions when the list has none.", "quantifier": "all lists and all n", "why_tests_cant": "The single test uses three elements and n = 2; completeness and order are claims about all sizes, and elements that are lists themselves must not be flattened away.", "anchors": ["expreduce/resources/combinatorics.m 67-83", "expreduce/builtin_expression.go Flatten", "expreduce/builtin_list.go Prepend"]}
{"id": "C107", "title": "PrimeQ, PrimePi and Prime agree with each other and with the primes", "statement": "PrimeQ[n] is True exactly for primes and their negatives (for |n| < 2^64), and never False for a prime; PrimePi[x] is the number of primes not exceeding x; a value returned by Prime[n] is the n-th prime, and there is one whenever 1 <= n <= 211642827166041848. (PrimePi[1] is 1, and arguments beyond 64 bits are silently truncated: Prime[2^64+1] is 2 - these parts are refuted.)", "quantifier": "every integer and every machine number, every sieve that lists the primes up to its argument, every upper bound function", "why_tests_cant": "infinitely many arguments; the answer for n depends on a floating point bound and on a third-party sieve, so a test only shows the sampled n", "anchors": ["expreduce/builtin_numbertheory.go: PrimePi, Prime", "expreduce/qfunctions.go: primeQ"]}
{"id": "C108", "title": "PowerMod gives the residue of the power", "statement": "PowerMod[x, y, m] for y > 0 (or y = 0 and x nonzero) and m nonzero is the r in 0..|m|-1 with m dividing x^y - r. (A negative y does not give the modular inverse: refuted.)", "quantifier": "all integers x, y, m", "why_tests_cant": "all triples of unbounded integers", "anchors": ["expreduce/resources/numbertheory.m: PowerMod", "expreduce/builtin_numbertheory.go: Mod"]}
{"id": "C109", "title": "Numerator over Denominator is the expression", "statement": "For every product e in which the factors with a negative exponent (a negative number, or minus a symbol) are invertible, e = Numerator[e]/Denominator[e] and the denominator is not zero; the numerator of a product keeps exactly the other factors, the denominator has exactly the opposite powers. Every other expression also equals its Numerator over its Denominator. (A lone 1/b and a rational coefficient are not split: refuted.)", "quantifier": "every expression, every field and every assignment of values to its symbols and functions", "why_tests_cant": "a universally quantified algebraic identity over unboundedly long products and all values", "anchors": ["expreduce/resources/manip.m: Numerator, Denominator, denPattern"]}
{"id": "C110", "title": "Together keeps the value", "statement": "Whatever sequence of its rules Together applies (common denominators, rational and imaginary-rational coefficients, products, powers, constant factor), the result has the same value as the input wherever none of the denominators multiplied by is zero.", "quantifier": "every expression, every choice of matching, every field and every assignment of values", "why_tests_cant": "a rewriting system with unboundedly many rule sequences and an algebraic identity at every one of them", "anchors": ["expreduce/resources/manip.m: ExpreduceTogether, Together, ExpreduceDistributeMultiply", "expreduce/resources/power.m: ExpreduceFactorConstant"]}
{"id": "C111", "title": "The constant factor taken out of a sum is the right one", "statement": "The constant that Together and FactorTerms take out of a sum with integer coefficients divides all of them, leaves coefficients without a common factor, and leaves the last coefficient positive.", "quantifier": "every list of integer coefficients, not all zero", "why_tests_cant": "all lists of unbounded integers", "anchors": ["expreduce/resources/power.m: ExpreduceFactorConstant, FactorTermsList"]}
{"id": "C112", "title": "SetAttributes, ClearAttributes, Protect and Unprotect change exactly the attributes named", "statement": "After SetAttributes[s, {a1,...}] the attributes of s are the old ones together with the ai; after ClearAttributes the old ones without the ai; Protect and Unprotect do this for Protected; SetAttributes[{s1,...}, ...] does it for every symbol listed. No rule is lost and no other symbol is touched.", "quantifier": "every state of the definitions, every symbol, every list of attribute names", "why_tests_cant": "all prior histories of a symbol and all combinations of attributes; goes through Union and Complement, which compare by hash", "anchors": ["expreduce/resources/system.m: SetAttributes, ClearAttributes, Protect, Unprotect", "expreduce/evalstate.go: defineAttrs", "expreduce/builtin_list.go: Union, Complement"]}
{"id": "C113", "title": "AppendTo and PrependTo grow the list in a variable", "statement": "If x holds a list {l1,...,ln} of evaluated elements after e has been evaluated to w, then AppendTo[x, e] returns {l1,...,ln,w}, leaves exactly that list as the value of x and changes no other symbol; PrependTo[x, e] does the same with {w,l1,...,ln}. A sequence AppendTo[x,a1];...;AppendTo[x,ak] of literals leaves {l1,...,ln,a1,...,ak} in x. A list of evaluated elements is its own value. AppendTo on a symbol without a value never ends (refuted).", "quantifier": "all variables, lists, expressions e (with any side effects), interpreter states in which AppendTo/Append/Set/List are as loaded, all numbers of statements", "why_tests_cant": "quantifies over all lists, states and lengths of statement sequences; the unit test only checks one list of two symbols", "anchors": ["expreduce/resources/list.m: AppendTo, PrependTo", "expreduce/builtin_list.go: Append, Prepend", "expreduce/builtin_system.go: Set", "expreduce/evalstate.go: Define"]}
{"id": "C114", "title": "Sow and Reap", "statement": "Sow[e] gives the value of e and, inside Reap, adds it at the end of the collected values; outside of any Reap it changes nothing. Reap[body] evaluates body starting with nothing collected and gives {r, {{s1,...,sn}}} where r is the value of body and s1,...,sn are the values sown during the evaluation, in order; afterwards nothing is collected. In particular Reap[Sow[a1];...;Sow[an]] is {an, {{a1,...,an}}} for every n. An inner Reap discards what an outer one has collected, and Sow goes on collecting after a Reap has ended (both refuted as expected behaviour).", "quantifier": "all expressions e and bodies (with any side effects), all interpreter states, all numbers of Sow statements", "why_tests_cant": "order and completeness of the collected values over all bodies and all lengths; nested use", "anchors": ["expreduce/builtin_system.go: Sow, Reap", "expreduce/evalstate.go: GetReapSown, SetReapSown", "expreduce/resources/system.m 330-334"]}
{"id": "C115", "title": "N gives the nearest machine reals", "statement": "N[q] for an integer or rational q is a machine real nearest to q: no number with a 53-bit mantissa is closer, the error is at most 2^-53 |q|, and there is none if q can be represented. Inside an expression, N replaces exactly the integers, the rationals, Pi and E, keeps everything else as it is, and leaves no exact real number; applying it twice is the same as once; N[Pi] and N[E] are within half a unit in the last place of pi and e. A definition the user gives for N[s] is used wherever s occurs as a part. Known exceptions (proved): complex numbers stay exact, and integers that are not quantities, such as positions in Part, are made inexact too.", "quantifier": "all expressions, all integers and rationals of any size, all sets of definitions for N", "why_tests_cant": "correct rounding is a statement about every number and every competing machine real", "anchors": ["expreduce/builtin_system.go: exprToN, N", "expreduce/atoms/ex_real.go: IntegerToFlt RationalToFlt", "expreduce/resources/specialsyms.m: N[Pi] N[E]"]}
{"id": "C116", "title": "FreeQ tells whether a pattern occurs", "statement": "FreeQ[e, p] is True exactly if no subexpression of the value of e, heads included, matches the pattern p; otherwise False. Known exceptions (proved): e is evaluated again after the matches have been replaced by the symbol Internal`DummyReplace, so that a definition for an expression with that symbol can make it miss an occurrence, and it never notices that symbol itself.", "quantifier": "all expressions, patterns and states", "why_tests_cant": "every expression against every pattern", "anchors": ["expreduce/resources/pattern.m: FreeQ", "expreduce/builtin_replacement.go: ReplaceAll", "expreduce/builtin_comparison.go: SameQ"]}
{"id": "C117", "title": "Conditions are carried through numeric functions", "statement": "When arguments of a numeric function (Plus, Times, Sin, ...) are ConditionalExpression[value, condition], the call evaluates exactly as ConditionalExpression[call with the values, And[all conditions in order]]; no condition is lost, duplicated or attached to the wrong call, and the result is the value of the call under the value of the conjunction. (A condition that is True or False is not simplified away: ConditionalExpression[5, True] is a value of its own.)", "quantifier": "every symbol with the NumericFunction attribute, every list of arguments, every session state and every evaluation", "why_tests_cant": "The arguments, the number and the position of the conditional ones, and the session are unbounded.", "anchors": ["expreduce/atoms/ex_expression.go: PropagateConditionals", "expreduce/eval.go: evalExpression"]}
{"id": "C118", "title": "Module creates its locals and runs its body, Block does not scope dynamically", "statement": "Evaluating Module[{x, y = v, z := w}, body] generates one name per local, all different and none of them known to the session, changes nothing else but $ModuleNumber, evaluates the initialisers with = from left to right in the session outside, stores those with := unevaluated, and then has the value of the body with every occurrence of a local replaced by its generated symbol; in particular Module[{x = e}, x] is the value of e. If $ModuleNumber is not an integer the process is killed. Block[{x = v}, body] is the same as Module: functions called from the body do not see v.", "quantifier": "every session, every list of local variables, every initialiser and body, every evaluation of them", "why_tests_cant": "The session (which names are in use), the locals and the side effects of the initialisers are unbounded.", "anchors": ["expreduce/builtin_system.go: applyModuleFn, snagUnique", "expreduce/resources/system.m: Module, Block"]}
{"id": "C119", "title": "Rewriting trigonometric functions to exponentials", "statement": "TrigToExp[e] returns an expression with the same complex value as e for every value of the symbols (Tan[z] having the value Sin[z]/Cos[z]), at any nesting depth, and the result contains no Sin, Cos or Tan of one argument. The automatic rules E^Log[a] = a, E^(Log[a]+r) = a E^r, E^(n I Pi) = +-1 for every integer n, and FullSimplify's E^x + E^-x = 2 Cosh[x] keep the complex value whenever a is not 0.", "quantifier": "every expression, every complex assignment to its symbols and to the functions it does not treat, every integer n", "why_tests_cant": "the expressions nest without bound and the values range over all complex numbers; tests compare a few printed results", "anchors": ["expreduce/resources/trig.m:TrigToExp,trigToExpInner", "expreduce/resources/power.m:Power", "expreduce/resources/simplify.m:FullSimplify"]}
{"id": "C120", "title": "Rules for parts of a Flat expression", "statement": "Applying a rule f[p1, ..., pk] -> rhs to f[a1, ..., an] for a function f with the attribute Flat, when the whole expression does not match, either changes nothing or replaces a group of arguments b1, ..., bm such that f[b1, ..., bm] is an instance of f[p1, ..., pk] by rhs with the pattern variables filled in; all other arguments are kept, in their order before and after the group (any selection of arguments when f is also Orderless). If some group of neighbouring arguments is an instance of the pattern, a group is replaced.", "quantifier": "every Flat function, argument list, pattern list and right-hand side, every matching environment", "why_tests_cant": "argument lists and patterns are unbounded and the rewritten group can start anywhere; tests check a few sums and products", "anchors": ["expreduce/replace.go:flatReplace,replaceAll", "expreduce/matcher/matchq.go:IsMatchQ"]}
{"id": "C121", "title": "SetDelayed", "statement": "f[args] := rhs stores the rule f[args] := rhs for f, returns Null and changes nothing else; rhs is never evaluated. If f holds all its arguments, args are stored as written; otherwise the parts of f[args] are evaluated first, from left to right, whatever HoldFirst and HoldRest say. x := rhs stores a value for x. After the first definition of a function a call that fits the left-hand side has the value of rhs with the pattern variables filled in.", "quantifier": "every function, argument list, right-hand side and state of the definitions", "why_tests_cant": "left- and right-hand sides are arbitrary expressions and the definitions present beforehand are arbitrary; tests define a few functions", "anchors": ["expreduce/builtin_system.go:SetDelayed", "expreduce/evalstate.go:Define"]}
{"id": "C122", "title": "Arithmetic with machine reals is rounded, never wrong", "statement": "A sum or product of real numbers in which at least one machine real takes part is a machine real. Two machine reals give the machine real nearest to the exact result. For any number of integers, rationals and machine reals, the result differs from the exact sum by at most (1 + 2^-53)^(n+7) - 1 times the sum of the absolute values, and from the exact product by at most that factor times the product; sums of whole numbers whose absolute values add up to less than 2^53 are exact; the order in which machine reals are written does not change the sum. Grouping does, and a rational meeting a machine real is not converted to the machine real nearest to it.", "quantifier": "all finite lists of integers, rationals with nonzero denominators and finite machine reals, all permutations", "why_tests_cant": "an error bound and order independence over all machine reals and all list lengths", "anchors": ["expreduce/atoms/calculator.go: ComputeNumericPart, typedRealPart", "expreduce/atoms/ex_real.go: addI addR addF mulI mulR mulF", "expreduce/atoms/ex_rational.go: asBigFloat", "expreduce/builtin_arithmetic.go: Plus, Times"]}
{"id": "C123", "title": "Random numbers stay in the interval asked for", "statement": "RandomReal[max] for a positive number max (a machine real or an integer up to 2^53) is a machine real x with 0 <= x < max, and RandomReal[{min, max}] with min <= max is a machine real between min and max, in spite of the roundings in RandomReal[]*(max - min) + min; it can be max itself. After SeedRandom[n] the numbers drawn do not depend on what was drawn before; seeds that agree in their low 64 bits give the same numbers, whatever the generator. Other arguments leave both functions alone.", "quantifier": "every value drawn from [0, 1), every min and max, every generator, seed and number of draws", "why_tests_cant": "rounding at the ends of the interval happens for a few of 2^53 draws and all pairs of bounds", "anchors": ["expreduce/builtin_random.go: RandomReal SeedRandom", "expreduce/resources/random.m: RandomReal"]}
{"id": "C124", "title": "Powers with a machine real", "statement": "x^1. is x, whatever x is; x^0. is 1 for a nonzero integer or machine real and Indeterminate for zero; 0 to a positive power is that 0. With a machine real as base or power, and a base that is not negative or a whole-number power, the result is otherwise a machine real. A negative machine real to a machine-real power is a machine real for a whole power, else a complex number. The calls that stop the program are exactly determined: every negative integer to a machine-real power other than 0., 1. and -1., such as (-2)^0.5.", "quantifier": "all bases, powers, external Pow functions and evaluator results", "why_tests_cant": "a nil pointer is reached for all negative integer bases at once; the case split covers all pairs of numbers", "anchors": ["expreduce/builtin_power.go: Power"]}
{"id": "C125", "title": "Numeric functions of machine reals", "statement": "Sin, Cos, Tan, Cot, ArcTan and Exp of a machine real that float64 can hold give a machine real or, where the function has no value, stop the program; every other argument and number of arguments is left alone. The machine reals evaluated are exactly the values of float64. Log of a machine real gives a machine real if it is positive and is left alone otherwise. Sin[Cot[0.]] stops the program.", "quantifier": "all argument lists, all float64 functions", "why_tests_cant": "a classification over all arguments and all 53-bit values and exponents", "anchors": ["expreduce/builtin_trig.go: mathFnOneParam getTrigDefinitions", "expreduce/builtin_power.go: bigMathFnOneParam"]}
{"id": "C126", "title": "Arithmetic with Infinity agrees with limits", "statement": "Infinity + x drops x, and the sum it leaves grows (or falls) beyond all bounds exactly when the original does, if x is finite; b^Infinity and b^(-Infinity) are the limits of the powers of b: 0, Infinity, ComplexInfinity when only the absolute values grow, Indeterminate for 1 and -1.", "quantifier": "all sums with Infinity, all finite terms, all sequences growing beyond all bounds, all exact real bases", "why_tests_cant": "Tests try a few bases and terms; the rules apply to every expression, including Indeterminate, multiples of Infinity, machine reals and bases that only just differ from 1 or -1.", "anchors": ["expreduce/resources/specialsyms.m:2-4", "expreduce/resources/power.m:18-50"]}
{"id": "C127", "title": "Closed forms of sums", "statement": "Sum[i, {i, m, n}] with a symbolic limit and Sum[c/i^2, {i, 1, Infinity}] give an expression whose value is the sum of the terms (the limit of the partial sums for the series), whatever values the symbols later take.", "quantifier": "all integer values of the symbolic limit, all factors c, all iteration variables", "why_tests_cant": "A test compares the closed form with another expression; that it equals the sum for every n, and that the infinite series converges to it, is a statement about infinitely many numbers.", "anchors": ["expreduce/resources/arithmetic.m:94-101"]}
{"id": "C128", "title": "Simplify never makes things larger", "statement": "ExpreduceLeafCountSimplify is the number of atoms with negative numbers and rationals counted extra; the search Simplify makes at each node returns a form no larger than the boolean/trigonometric form it starts from, and no larger than the Together, common-factor and factored-out forms it tries; and if each of the rewriters keeps the value of an expression, Simplify does, at every level.", "quantifier": "all expressions, all rewriters (whatever they return), all value-preserving congruences", "why_tests_cant": "A test simplifies one expression with the rewriters there are; that no combination of rewriters and expression makes the result larger or changes its value is a statement about all of them.", "anchors": ["expreduce/builtin_expression.go:53-80", "expreduce/resources/simplify.m:41-81"]}
{"id": "C129", "title": "Unique symbols, Hash and Default", "statement": "Unique[] and Unique[\"x\"] return a symbol that had no definition, with the given prefix, always find one, lose no definition, and two calls with the same prefix return different symbols; Hash gives two expressions the same number exactly when SameQ holds (machine reals aside); Default[s] is the default stored with s.", "quantifier": "all states of the definitions, all prefixes, all histories between the calls that do not set $ModuleNumber back, all expressions", "why_tests_cant": "A test calls Unique in one state; freshness must hold in every state and after every history, with user symbols named like generated ones.", "anchors": ["expreduce/builtin_system.go:152-179,381-399,898-908,980-1001", "expreduce/atoms/ex_symbol.go:102-108"]}
{"id": "C130", "title": "Trace", "statement": "Trace[e] evaluates e with the same value, effects and number of steps as e alone; its value is a list of none or at least two entries, each HoldForm[x] or again such a list for an argument; a trace only grows at its end when no exception, nested Trace or freezing interferes; and the trace of an expression that evaluates to itself is {}.", "quantifier": "all expressions, all states, all behaviours of rules and builtins (as programs that evaluate expressions and call Trace)", "why_tests_cant": "A test traces one expression; that tracing never disturbs an evaluation, and what can stand in a trace, are statements about every program.", "anchors": ["expreduce/eval.go:20-180,255-260", "expreduce/builtin_system.go:683-712"]}
{"id": "C131", "title": "Definition[s] prints the definitions of s so that they can be read and restored", "statement": "Definition[s] prints one piece for the attributes of s (if any), one SetDelayed piece for every rule in the order in which the rules are tried, and one piece for the default (if any); each piece parses back to exactly the assignment it stands for. Evaluating the pieces in a session where s is unknown gives s the same attributes and the same rules, tried in the same order, whatever history of definitions led to them. The default is not restored: the piece Default[s] = x gives Default a rule and leaves the default of s unset.", "quantifier": "all symbols, all definition states reachable by a history of definitions of the symbol, all attribute sets, all stored rules with writable sides, all target sessions in which the symbol is unknown", "why_tests_cant": "tests look at the text of a few definitions; that the text restores every set of rules in the same order needs the interplay of specificity, overwriting and printing for all histories", "anchors": ["expreduce/definition.go: stringForm", "expreduce/builtin_system.go: Definition", "expreduce/evalstate.go: Define, DefineAttrs"]}
{"id": "C132", "title": "ClearAll forgets symbols completely", "statement": "ClearAll[s1, s2, ...] removes all rules, attributes, the default and the value of each of the symbols and touches no other symbol, if none of them has a value. A symbol whose value is an atom is not cleared (ClearAll[x] with x = 5 does nothing); if its value is another symbol, that other symbol is cleared instead. Clear[s] clears s in every state. SetAttributes[{s}, a] does nothing if s has such a value.", "quantifier": "all definition states, all lists of symbols, all values", "why_tests_cant": "tests clear one symbol with rules; that every other definition stays and that nothing of the symbol stays must hold for all states, and the failure needs a symbol that has a value", "anchors": ["expreduce/resources/system.m: ClearAll, SetAttributes", "expreduce/builtin_system.go: Clear", "expreduce/builtin_list.go: Scan"]}
{"id": "C133", "title": "ReplacePart[e, v, i] replaces exactly one part", "statement": "For every expression h[a1, ..., an] whose head has no rules, ReplacePart[h[a1, ..., an], v, i] with 1 <= i <= n is h[a1, ..., v, ..., an], also at the first and the last position. For i > n a message is printed and the result is Null; for i <= 0 and for atoms the call stays. For heads such as Plus, with h[v] = v, the result is an unevaluated Join.", "quantifier": "all heads, all argument lists, all positions, all new parts", "why_tests_cant": "one test replaces the second of four elements; the end positions use empty spans, which must work for every length", "anchors": ["expreduce/resources/replacement.m: ReplacePart", "expreduce/builtin_list.go: applyIndex, Join"]}
{"id": "C134", "title": "FixedPointList lists the iteration up to the first repetition", "statement": "For a function f whose calls f[x], f[f[x]], ... evaluate without side effects, FixedPointList[f, x] is the list {x, f[x], f[f[x]], ...} up to and including the first value that is SameQ to the one before it. If f sees the value of its argument, the last element is FixedPoint[f, x], and it is what f gives for a value SameQ to it. Refuted for a function that holds its argument: FixedPoint applies f to the previous value, FixedPointList nests the calls, and the two end in different values.", "quantifier": "all functions f, start values x, numbers of steps and evaluation states, barring hash accidents", "why_tests_cant": "the number of steps is unbounded and f is an arbitrary program", "anchors": ["/repo/expreduce/resources/functional.m: FixedPointList", "/repo/expreduce/builtin_functional.go: NestWhileList, FixedPoint"]}
{"id": "C135", "title": "The profile lists the most expensive definitions", "statement": "After any sequence of measurements each definition's count is the number of its measurements and its time their sum. Whatever order Go visits the map in, the report printed by ExpreduceDefinitionTimes[] has exactly one line, with the right time and count, for every definition that fewer than 25 others exceed in time, longer times first; two runs differ at most in the order of equal times. Merging two counters adds the times key by key. Refuted: merging loses counts (each merged key counts as one measurement), and the report is not limited to 25 lines: ties are all printed.", "quantifier": "all sequences of measurements, numbers of lines and map iteration orders", "why_tests_cant": "Go randomises the order in which a map is visited, and the number of measurements is unbounded", "anchors": ["/repo/expreduce/timecounter/timecounter.go: addTime, update, truncatedString", "/repo/expreduce/builtin_system.go: ExpreduceDefinitionTimes"]}
{"id": "C136", "title": "The rules for complex numbers agree with the builtin arithmetic", "statement": "Whichever of the library's rules for sums and products of complex numbers (a*Complex, a+Complex, Complex+Complex, Complex*Complex) fire, in whatever order and on whichever arguments, the sum or product of the arguments stays the same, each application leaves one argument fewer, one applies as long as there are two exact numbers with a complex one among them, and the builtin Plus or Times then returns exactly the number it would have returned without the rules.", "quantifier": "all lists of exact numbers (integers, rationals, complex numbers with such parts), all sequences of rule applications", "why_tests_cant": "Which rule fires first depends on the order of arguments and definitions; tests fix a few sums and products.", "anchors": ["expreduce/resources/atoms.m:52-55", "expreduce/atoms/calculator.go:ComputeNumericPart", "expreduce/atoms/ex_complex.go", "expreduce/eval.go:evalComplex"]}
{"id": "C137", "title": "Quiet and TimeConstrained are transparent; there is no time limit", "statement": "Quiet[e] has the value and the side effects of one evaluation of e. TimeConstrained[e, t] and TimeConstrained[e, t, f] likewise, whatever t and f are, neither of which is evaluated. In particular TimeConstrained does not end when e does not, for any limit. An argument of the form a /; b is not passed through: it becomes a condition of the definition.", "quantifier": "all expressions e, t, f, all states, both orders in which the two definitions of TimeConstrained may be kept", "why_tests_cant": "That no limit ever stops an endless evaluation cannot be observed by a test, and the value has to be kept for every expression.", "anchors": ["expreduce/resources/system.m:Quiet", "expreduce/resources/system.m:TimeConstrained", "expreduce/definition.go", "expreduce/evalstate.go"]}
{"id": "C138", "title": "Pause waits as long as it is asked to", "statement": "Pause[n] with an Integer n returns Null after exactly n seconds if 0 <= n <= 9223372036, and at once for a negative n of that size; for every other argument it stays unevaluated and does not wait. Outside that range it is never right: every longer pause is too short, the length has period 2^55 in n, the pauses just above the range return at once and large negative ones wait.", "quantifier": "all integers n, all argument lists except a single machine real", "why_tests_cant": "A test cannot wait 292 years, and the range in which the length is right is a statement about all integers.", "anchors": ["expreduce/builtin_time.go:Pause", "expreduce/resources/time.m:Pause"]}
{"id": "C139", "title": "TeXForm is well nested", "statement": "The text TeXForm writes for a sum, power, elementary function, function call, symbol, integer or rational, nested in any way, has its braces, \\left( \\right) pairs and brackets properly nested in each other, so TeX can read it. Sums that are bases of powers or terms of sums are put into parentheses, powers that are terms are not. The text does not determine the expression: E and a variable e are printed alike, and a negative number as base of a power gets no parentheses.", "quantifier": "all expressions of the modelled kinds, all visible names, all enclosing operators", "why_tests_cant": "Expressions nest without bound; a test prints a few.", "anchors": ["expreduce/string.go:simpleTeXToString", "expreduce/string.go:toStringInfixAdvanced", "expreduce/atoms/ex_symbol.go:formatSymName", "expreduce/builtin_arithmetic.go:Plus", "expreduce/builtin_power.go:Power", "expreduce/builtin_trig.go"]}
