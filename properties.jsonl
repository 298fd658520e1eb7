{"id": "C01", "title": "Operand lists survive tree building", "statement": "BuildFromVector<Add|Multiply> on a list of at least two operands, none of which is itself a node of that type, yields a tree whose Flatten returns exactly the same operands in the same order; lists with fewer than two operands yield null.", "quantifier": "every operand list, of any length, and every associative node type", "why_tests_cant": "the pairing loop behaves differently for every length (odd carry at each level); tests try a handful of lengths", "anchors": ["include/Oasis/BinaryExpression.hpp:BuildFromVector", "include/Oasis/BinaryExpression.hpp:Flatten", "include/Oasis/Add.hpp:Add", "include/Oasis/Multiply.hpp:Multiply"]}
{"id": "C02", "title": "Trees built from operand lists are balanced", "statement": "The tree BuildFromVector returns for n >= 2 operands is reasonably balanced: every operand sits at depth at most ceil(log2 n), and the tree contains exactly n-1 new nodes.", "quantifier": "every operand list of any length", "why_tests_cant": "depth is a function of an unbounded length", "anchors": ["include/Oasis/BinaryExpression.hpp:BuildFromVector"]}
{"id": "C03", "title": "Building from a list keeps the mathematical value", "statement": "The value of the Add (Multiply) node built from a list of operands by BuildFromVector or by the n-ary constructor is the sum (product) of the values of the operands, for every assignment of the variables.", "quantifier": "every operand list of length >= 2, every assignment", "why_tests_cant": "ranges over all operand lists and all assignments", "anchors": ["include/Oasis/BinaryExpression.hpp:BuildFromVector", "include/Oasis/BinaryExpression.hpp:BinaryExpression(const Op1T&, const Op2T&, const OpsT&...)"]}
{"id": "C04", "title": "RecursiveCast only reorders operands", "statement": "If RecursiveCast<T>(e) succeeds then the result has the shape T asks for, and it is e up to exchanging the operands of commutative nodes (so it has the same value as e when only sums and products are reordered).", "quantifier": "every expression and every target type", "why_tests_cant": "the cast recurses through arbitrary trees and arbitrary nested template arguments", "anchors": ["include/Oasis/RecursiveCast.hpp:RecursiveCast", "include/Oasis/BinaryExpression.hpp:SwapOperands"]}
{"id": "C05", "title": "RecursiveCast finds a match whenever there is one", "statement": "RecursiveCast<T>(e) returns null only if no reordering of the operands of commutative nodes of e has the shape T asks for.", "quantifier": "every expression and every target type", "why_tests_cant": "a missed orientation shows up only for particular nestings of types", "anchors": ["include/Oasis/RecursiveCast.hpp:RecursiveCast"]}
{"id": "C06", "title": "Equals is reflexive", "statement": "Every expression equals itself and its copy.", "quantifier": "every expression", "why_tests_cant": "holds or fails per leaf kind inside arbitrarily large trees; false as stated (Undefined never equals itself, nor does a Real holding NaN)", "anchors": ["include/Oasis/BinaryExpression.hpp:Equals", "include/Oasis/UnaryExpression.hpp:Equals", "include/Oasis/Undefined.hpp", "src/Real.cpp:Equals"]}
{"id": "C07", "title": "Equals is symmetric", "statement": "a.Equals(b) and b.Equals(a) always give the same answer.", "quantifier": "every pair of expressions", "why_tests_cant": "a property of all pairs; the associative branch only checks one inclusion", "anchors": ["include/Oasis/BinaryExpression.hpp:Equals"]}
{"id": "C08", "title": "Equal expressions have equal values", "statement": "If a.Equals(b) then a and b evaluate to the same number under every assignment of the variables.", "quantifier": "every pair of expressions, every assignment", "why_tests_cant": "ranges over all pairs and all assignments; the associative branch ignores multiplicity and length", "anchors": ["include/Oasis/BinaryExpression.hpp:Equals", "src/Variable.cpp:Equals", "src/Real.cpp:Equals"]}
{"id": "C09", "title": "Equals sees through associativity and commutativity", "statement": "Two nested sums (products) whose flattened operand lists are permutations of each other are Equal, however they are nested.", "quantifier": "every pair of same-type associative trees with permuted operands", "why_tests_cant": "all nestings and permutations of unboundedly many operands", "anchors": ["include/Oasis/BinaryExpression.hpp:Equals", "include/Oasis/BinaryExpression.hpp:Flatten"]}
{"id": "C10", "title": "Equals never throws", "statement": "Comparing two expressions with Equals returns true or false; it raises no exception.", "quantifier": "every pair of expressions", "why_tests_cant": "depends on a leaf kind (Pi) anywhere in the trees being compared against any other node at the matching position", "anchors": ["src/Pi.cpp:Equals", "include/Oasis/BinaryExpression.hpp:Equals"]}
{"id": "C11", "title": "StructurallyEquivalent is an equivalence relation", "statement": "StructurallyEquivalent is reflexive, symmetric and transitive, and Equals without reordering implies it.", "quantifier": "all expressions (pairs and triples)", "why_tests_cant": "an algebraic law over all triples", "anchors": ["include/Oasis/BinaryExpression.hpp:StructurallyEquivalent", "include/Oasis/UnaryExpression.hpp:StructurallyEquivalent", "include/Oasis/LeafExpression.hpp:StructurallyEquivalent"]}
{"id": "C12", "title": "Simplify preserves the value", "statement": "If an expression has a value under an assignment, then the simplified expression has the same value under that assignment (exact arithmetic).", "quantifier": "every expression, every assignment, every amount of recursion", "why_tests_cant": "rewriting rules interact: dozens of rules fire in orders that depend on the whole expression", "anchors": ["src/SimplifyVisitor.cpp:TypedVisit", "include/Oasis/SimplifyVisitor.hpp"]}
{"id": "C13", "title": "Simplify folds constants", "statement": "An arithmetic expression built from Real literals with + - * / ^ simplifies to a single Real, whose value is the one obtained by performing the same double operations bottom-up.", "quantifier": "every literal arithmetic expression, any double arithmetic", "why_tests_cant": "all trees of literals", "anchors": ["src/SimplifyVisitor.cpp:TypedVisit(Add)", "src/SimplifyVisitor.cpp:TypedVisit(Subtract)", "src/SimplifyVisitor.cpp:TypedVisit(Multiply)", "src/SimplifyVisitor.cpp:TypedVisit(Divide)", "src/SimplifyVisitor.cpp:TypedVisit(Exponent)"]}
{"id": "C14", "title": "Simplify terminates", "statement": "SimplifyVisitor returns on every expression.", "quantifier": "every expression", "why_tests_cant": "non-termination cannot be observed by a finite test, and the rules re-enter the visitor on rewritten terms", "anchors": ["src/SimplifyVisitor.cpp:TypedVisit(Derivative)", "src/Expression.cpp:Differentiate", "src/SimplifyVisitor.cpp:TypedVisit(Subtract)"]}
{"id": "C15", "title": "Simplify reports failure through its result", "statement": "SimplifyVisitor never lets an exception escape and never dereferences a null operand: it returns an expression or an error value.", "quantifier": "every expression", "why_tests_cant": "ranges over all expressions; the throwing combinations sit behind other rules", "anchors": ["src/SimplifyVisitor.cpp:TypedVisit(Exponent)", "src/SimplifyVisitor.cpp:TypedVisit(Add)", "src/Pi.cpp:Equals", "src/SimplifyVisitor.cpp:TypedVisit(Integral)"]}
{"id": "C16", "title": "Simplify is idempotent", "statement": "Simplifying a simplified expression changes nothing.", "quantifier": "every expression", "why_tests_cant": "all expressions", "anchors": ["src/SimplifyVisitor.cpp:TypedVisit"]}
{"id": "C17", "title": "Simplify introduces no variables", "statement": "Every variable occurring in the simplified expression occurs in the input (expressions without Integral, whose constant of integration C is new).", "quantifier": "every integral-free expression", "why_tests_cant": "all expressions and all rule interactions", "anchors": ["src/SimplifyVisitor.cpp:TypedVisit"]}
{"id": "C18", "title": "Leaves and literal-only identities are handled exactly", "statement": "Real, Imaginary, Variable, Undefined, Pi, EulerNumber and Matrix simplify to themselves; x+0, 1*x, 0*x, x^0, x^1, x-x, x+x, x*x, c1*x+c2*x, x^n*x^m, log_b(b), log_b(1), i*i give the textbook result.", "quantifier": "every variable name and every double literal for which the side conditions hold", "why_tests_cant": "ranges over all names and all literal values", "anchors": ["src/SimplifyVisitor.cpp:TypedVisit(Add)", "src/SimplifyVisitor.cpp:TypedVisit(Multiply)", "src/SimplifyVisitor.cpp:TypedVisit(Exponent)", "src/SimplifyVisitor.cpp:TypedVisit(Log)"]}
{"id": "C19", "title": "Logarithms outside their domain become Undefined", "statement": "Simplifying Log(b, a) with simplified literal base b <= 0 or b = 1, or simplified literal argument a <= 0, gives Undefined, and the logarithm of a positive literal to a legal literal base gives a Real.", "quantifier": "every pair of operand expressions", "why_tests_cant": "all operands that simplify to such literals", "anchors": ["src/SimplifyVisitor.cpp:TypedVisit(Log)"]}
{"id": "C20", "title": "Trigonometric nodes are not altered by simplification", "statement": "Simplifying Sine(e) keeps a value equal to the sine of the value of e.", "quantifier": "every operand expression", "why_tests_cant": "all operands and assignments", "anchors": ["src/SimplifyVisitor.cpp:TypedVisit(Sine)"]}
{"id": "C21", "title": "Differentiate computes the derivative", "statement": "If e denotes a real function of x near a point, Differentiate(x) denotes its derivative at that point whenever the answer contains no unevaluated Derivative.", "quantifier": "every expression, variable and point", "why_tests_cant": "statement about limits, all expressions and all points", "anchors": ["src/DifferentiateVisitor.cpp:TypedVisit", "src/Expression.cpp:Differentiate"]}
{"id": "C22", "title": "Repeated differentiation", "statement": "Differentiating a Derivative node with respect to x gives the derivative of the derivative.", "quantifier": "every operand expression", "why_tests_cant": "all operands", "anchors": ["src/DifferentiateVisitor.cpp:TypedVisit(Derivative)"]}
{"id": "C23", "title": "Differentiation always answers", "statement": "Expression::Differentiate returns an expression (possibly an unevaluated Derivative node) and never throws.", "quantifier": "every expression and every differentiation variable", "why_tests_cant": "the throwing case needs an error in the right operand of a sum only", "anchors": ["src/DifferentiateVisitor.cpp:TypedVisit(Add)", "src/DifferentiateVisitor.cpp:TypedVisit(Subtract)", "src/Expression.cpp:Differentiate"]}
{"id": "C24", "title": "Substitute is semantic substitution", "statement": "The value of e.Substitute(x, v) under an assignment is the value of e under the assignment that maps x to the value of v.", "quantifier": "every expression, variable, replacement and assignment", "why_tests_cant": "substitution lemma over all trees; each binary node is re-simplified on the way up", "anchors": ["include/Oasis/BinaryExpression.hpp:Substitute", "include/Oasis/UnaryExpression.hpp:Substitute", "src/Variable.cpp:Substitute", "include/Oasis/LeafExpression.hpp:Substitute"]}
{"id": "C25", "title": "Substitute eliminates the variable", "statement": "x does not occur in e.Substitute(x, v) when it does not occur in v; substituting for a variable that does not occur leaves the value unchanged; a non-variable target is rejected with invalid_argument exactly when e contains a variable.", "quantifier": "every expression, variable and replacement", "why_tests_cant": "all trees", "anchors": ["include/Oasis/BinaryExpression.hpp:Substitute", "src/Variable.cpp:Substitute"]}
{"id": "C26", "title": "Integrate returns an antiderivative", "statement": "If e.Integrate(x) returns an expression without Integral nodes, its derivative with respect to x is e.", "quantifier": "every expression and variable, every point", "why_tests_cant": "statement about limits over all expressions", "anchors": ["src/Real.cpp:Integrate", "src/Variable.cpp:Integrate", "src/Add.cpp:Integrate", "src/Multiply.cpp:Integrate", "src/Divide.cpp:Integrate", "src/Exponent.cpp:Integrate", "src/Log.cpp:Integrate"]}
{"id": "C27", "title": "Definite integrals", "statement": "IntegrateWithBounds(x, a, b) is 0 when the bounds are Equal, and otherwise the difference of the antiderivative at b and at a, or null.", "quantifier": "every integrand and every pair of bounds", "why_tests_cant": "all integrands and bounds", "anchors": ["src/Integral.cpp:IntegrateWithBounds"]}
{"id": "C28", "title": "FindZeros reports only roots", "statement": "Every rational p/q reported by FindZeros for an integer-coefficient polynomial is a root of that polynomial.", "quantifier": "every integer polynomial of any degree", "why_tests_cant": "all degrees and coefficients", "anchors": ["src/Expression.cpp:FindZeros"]}
{"id": "C29", "title": "FindZeros reports every rational root", "statement": "Every rational root of an integer-coefficient polynomial is among the results of FindZeros.", "quantifier": "every integer polynomial of any degree", "why_tests_cant": "all degrees and coefficients", "anchors": ["src/Expression.cpp:FindZeros", "src/Expression.cpp:getAllFactors"]}
{"id": "C30", "title": "FindZeros is free of undefined behaviour", "statement": "FindZeros performs no division by zero, no out-of-range access and no access to an empty vector.", "quantifier": "every expression", "why_tests_cant": "needs particular coefficient patterns (zero constant term, negative exponents)", "anchors": ["src/Expression.cpp:FindZeros", "src/Expression.cpp:gcf"]}
{"id": "C31", "title": "Greatest common factor and factor enumeration", "statement": "For positive arguments gcf returns the greatest common divisor; getAllFactors(n) returns divisors of n only, and all of them.", "quantifier": "all positive integers", "why_tests_cant": "all integers", "anchors": ["src/Expression.cpp:gcf", "src/Expression.cpp:getAllFactors"]}
{"id": "C32", "title": "Linear systems are transcribed faithfully", "statement": "ConstructMatrices on n equations, each a sum of at most one constant and terms c*v with distinct v, in at most n variables gives A and b such that A x = b iff every equation evaluates to 0; the column of each variable is unique.", "quantifier": "every system of n equations in at most n variables", "why_tests_cant": "all sizes and all term orders", "anchors": ["src/Linear.cpp:ConstructMatrices", "include/Oasis/Linear.hpp:GetMapValue"]}
{"id": "C33", "title": "Linear system solving does not crash", "statement": "SolveLinearSystems / ConstructMatrices perform no null dereference and no out-of-range access.", "quantifier": "every vector of expressions", "why_tests_cant": "needs an equation that simplifies to a single term, or more variables than equations", "anchors": ["src/Linear.cpp:ConstructMatrices", "src/Linear.cpp:SolveLinearSystems"]}
{"id": "C34", "title": "Matrix construction and transposition", "statement": "Matrix(r, c, vals) stores vals row by row, padding with zeros and ignoring extra values; transposing twice gives the matrix back; Identity has ones exactly on the diagonal.", "quantifier": "all dimensions and value vectors", "why_tests_cant": "all dimensions", "anchors": ["src/Matrix.cpp:Matrix", "src/Matrix.cpp:Transpose", "src/Matrix.cpp:Identity"]}
{"id": "C35", "title": "Matrix arithmetic in Simplify", "statement": "Simplifying the sum, difference or product of two matrices gives the entrywise sum or difference or the matrix product when the dimensions agree, and leaves the expression symbolic otherwise.", "quantifier": "all pairs of matrices of any dimensions", "why_tests_cant": "all dimensions and entries", "anchors": ["src/SimplifyVisitor.cpp:TypedVisit(Add)", "src/SimplifyVisitor.cpp:TypedVisit(Subtract)", "src/SimplifyVisitor.cpp:TypedVisit(Multiply)"]}
{"id": "C36", "title": "InFix serialization is total except for matrices", "statement": "InFixSerializer fails exactly when the expression contains a Matrix, and its output has balanced parentheses when names do.", "quantifier": "every expression", "why_tests_cant": "all trees", "anchors": ["io/src/InFixSerializer.cpp", "io/include/Oasis/InFixSerializer.hpp"]}
{"id": "C37", "title": "InFix round trip", "statement": "Parsing PreProcessInFix of the serialized form of an expression built from non-negative literals, single-letter variables, i, e, the five arithmetic operators and log/dd/in gives back that expression.", "quantifier": "every expression of that kind, of any depth", "why_tests_cant": "all trees; interaction of three text passes with a stack parser", "anchors": ["io/src/InFixSerializer.cpp", "io/src/FromString.cpp:PreProcessInFix", "io/src/FromString.cpp:FromInFix"]}
{"id": "C38", "title": "InFix output of any serializable expression can be parsed back", "statement": "For every expression InFixSerializer accepts, parsing the output gives an expression with the same value.", "quantifier": "every matrix-free expression", "why_tests_cant": "all trees (false: negative literals, Negate, Magnitude, multi-letter names, large literals)", "anchors": ["io/src/InFixSerializer.cpp", "io/src/FromString.cpp:FromInFix"]}
{"id": "C39", "title": "Operator precedence and associativity of the infix parser", "statement": "A flat infix string of operands and the operators + - * / ^ parses to the tree given by the usual precedences with all operators grouping to the left.", "quantifier": "every operand/operator sequence of any length", "why_tests_cant": "all sequences; the operator-stack invariant is inductive", "anchors": ["io/src/FromString.cpp:FromInFix", "io/src/FromString.cpp:prec", "io/src/FromString.cpp:processOp"]}
{"id": "C40", "title": "The infix parser never crashes", "statement": "FromInFix returns an expression or an error for every string: the stacks are never popped when empty.", "quantifier": "every string", "why_tests_cant": "all strings", "anchors": ["io/src/FromString.cpp:FromInFix", "io/src/FromString.cpp:processOp", "io/src/FromString.cpp:processFunction"]}
{"id": "C41", "title": "The infix parser rejects malformed input", "statement": "A string that is not a well-formed infix expression is rejected.", "quantifier": "every string", "why_tests_cant": "all strings (false: leftover operands are dropped)", "anchors": ["io/src/FromString.cpp:FromInFix"]}
{"id": "C42", "title": "Preprocessing only inserts spaces and multiplication signs", "statement": "PreProcessInFix keeps every non-space character of its input in order; everything it inserts is a space or '*'.", "quantifier": "every string", "why_tests_cant": "all strings", "anchors": ["io/src/FromString.cpp:SpaceAroundOperators", "io/src/FromString.cpp:ImplicitMultiplication", "io/src/FromString.cpp:PreProcessInFix"]}
{"id": "C43", "title": "PALM round trip", "statement": "Parsing the PALM text of an expression (one space between tokens, as docs/PALM.bnf prescribes) gives that expression back.", "quantifier": "every expression in the PALM grammar, of any depth", "why_tests_cant": "all trees; the parser backtracks by re-reading the stream", "anchors": ["io/src/FromPALM.cpp:FromPALM", "docs/PALM.bnf"]}
{"id": "C44", "title": "PALM ignores surrounding whitespace", "statement": "Adding whitespace before, between or after tokens does not change what FromPALM returns.", "quantifier": "every string and every amount of whitespace", "why_tests_cant": "all strings (false for trailing whitespace)", "anchors": ["io/src/FromPALM.cpp:FromPALM", "io/src/FromPALM.cpp:TokenStream"]}
{"id": "C45", "title": "PALM rejects malformed input", "statement": "FromPALM returns an error for every string outside the PALM grammar.", "quantifier": "every string", "why_tests_cant": "all strings (false: a bad operand is silently dropped and its tokens reused)", "anchors": ["io/src/FromPALM.cpp:ParseNullaryOperationElements", "io/src/FromPALM.cpp:ParseExpression"]}
{"id": "C46", "title": "n-ary PALM operators", "statement": "An n-ary PALM sum or product denotes the sum or product of its operands in order; n-ary subtraction, division, exponentiation nest to the right.", "quantifier": "every operand list of length >= 2", "why_tests_cant": "all lengths", "anchors": ["io/src/FromPALM.cpp:ParseBinaryOperationAssociativeAndCommutative", "io/src/FromPALM.cpp:ParseBinaryOperationNonAssociativeAndCommutative"]}
{"id": "C47", "title": "TeX output is well nested", "statement": "TeXSerializer output has balanced braces and balanced \\left/\\right pairs whenever variable names contain none.", "quantifier": "every expression and every serializer option", "why_tests_cant": "all trees and options", "anchors": ["io/src/TeXSerializer.cpp"]}
{"id": "C48", "title": "TeX derivative notation", "statement": "The TeX form of Derivative(e, x) is d/dx applied to e.", "quantifier": "every derivative node", "why_tests_cant": "all operands", "anchors": ["io/src/TeXSerializer.cpp:TypedVisit(Derivative)"]}
{"id": "C49", "title": "TeX output determines the expression", "statement": "Two expressions with the same TeX output are the same expression (for names and numbers that print unambiguously).", "quantifier": "all pairs of expressions", "why_tests_cant": "all pairs", "anchors": ["io/src/TeXSerializer.cpp"]}
{"id": "C50", "title": "MathML output keeps every operand", "statement": "Every variable of the expression occurs in the MathML document produced for it.", "quantifier": "every expression", "why_tests_cant": "all trees", "anchors": ["io/src/MathMLSerializer.cpp"]}
{"id": "C51", "title": "Operand setters either set or leave unchanged", "statement": "SetMostSigOp/SetLeastSigOp return true and install (a reordering of) the given operand when it can be cast to the declared operand type, and otherwise return false leaving the node unchanged.", "quantifier": "every node, operand and declared operand type", "why_tests_cant": "all types and operands", "anchors": ["include/Oasis/BinaryExpression.hpp:SetMostSigOp", "include/Oasis/BinaryExpression.hpp:SetLeastSigOp"]}
{"id": "C52", "title": "Operators + - * / on expressions fall back to the unsimplified node", "statement": "The overloaded operators return the simplified combination, or the plain combination when simplification reports an error; in both cases the value is the sum, difference, product or quotient of the operand values.", "quantifier": "every pair of expressions and assignment", "why_tests_cant": "all pairs", "anchors": ["src/Expression.cpp:operator+", "src/Expression.cpp:operator-", "src/Expression.cpp:operator*", "src/Expression.cpp:operator/"]}
{"id": "C53", "title": "SolveLinearSystems returns a solution", "statement": "The values returned by SolveLinearSystems make every given equation evaluate to 0 whenever the matrix inverse solves the constructed system, and they are the only such values when that system has one solution. For an augmented matrix, the last column is the right-hand side.", "quantifier": "every system of n equations in at most n variables", "why_tests_cant": "all systems of all sizes", "anchors": ["src/Linear.cpp:SolveLinearSystems"]}
{"id": "C54", "title": "FromPALM answers on every string", "statement": "FromPALM returns an expression or an error on every string: it terminates, throws nothing and dereferences nothing null.", "quantifier": "every string", "why_tests_cant": "all strings, including ones nested to any depth and ones that end anywhere", "anchors": ["io/src/FromPALM.cpp:FromPALM", "io/src/FromPALM.cpp:TokenStream"]}
{"id": "C55", "title": "MathML output is valid", "statement": "MathMLSerializer makes only token elements with text, rows, tables of rows of cells, and fractions, superscripts and subscripts with exactly two arguments.", "quantifier": "every expression and every number format", "why_tests_cant": "all trees", "anchors": ["io/src/MathMLSerializer.cpp"]}
{"id": "C56", "title": "Numerals never touch in MathML", "statement": "In no row of the MathML output is a numeral directly followed by an element that begins with a numeral, so that two numbers are never read as one.", "quantifier": "every expression and every number format", "why_tests_cant": "all trees and all pairs of neighbouring factors", "anchors": ["io/src/MathMLSerializer.cpp:TypedVisit(Multiply)"]}
{"id": "C57", "title": "MathML output determines the expression up to grouping", "statement": "Two expressions have the same MathML output exactly when they differ only in how sums and products are grouped; so equal output means equal value (for names and numbers that print unambiguously).", "quantifier": "all pairs of expressions", "why_tests_cant": "all pairs", "anchors": ["io/src/MathMLSerializer.cpp"]}
{"id": "C58", "title": "Like terms are combined", "statement": "Simplify turns a sum, difference, negation or integer multiple of terms c, c*x, c*x^k with integer coefficients into a sum in which every power of every variable occurs once, with its total coefficient, and powers whose coefficient is 0 or 1 are written without it; for double coefficients this holds as long as the coefficients stay within 2^53.", "quantifier": "every such expression, any number of terms and any nesting", "why_tests_cant": "all sums of all sizes and shapes: which rule fires depends on how the sum is nested", "anchors": ["src/SimplifyVisitor.cpp:TypedVisit(Add)", "src/SimplifyVisitor.cpp:TypedVisit(Subtract)", "src/SimplifyVisitor.cpp:TypedVisit(Multiply)", "src/SimplifyVisitor.cpp:TypedVisit(Negate)"]}
{"id": "C59", "title": "Equals decides equality of simplified polynomials", "statement": "After simplifying, two sums of integer terms are Equal exactly if they are the same polynomial, however they were written.", "quantifier": "all pairs of such sums", "why_tests_cant": "all pairs of sums of all sizes", "anchors": ["include/Oasis/BinaryExpression.hpp:Equals", "src/SimplifyVisitor.cpp:TypedVisit(Add)"]}
{"id": "C60", "title": "The command line answers every line by itself", "statement": "Each input line gets exactly one reply, in order, unless the program crashes; replies do not depend on other lines; white space around a line does not matter; blank lines are skipped; the line exit ends the session. The reply to a line is the printed form of the simplified parse of the preprocessed line, or the message of the first step that failed.", "quantifier": "all sessions: any number of any lines", "why_tests_cant": "sessions of any length with any lines", "anchors": ["cli/main.cpp:main", "cli/main.cpp:trim_whitespace"]}
{"id": "C61", "title": "No input line crashes the command line", "statement": "Whatever is typed, the program prints a result or an error message and goes on.", "quantifier": "all sessions", "why_tests_cant": "any text can be typed, and every rule of Simplify can be reached", "anchors": ["cli/main.cpp:main", "src/SimplifyVisitor.cpp"]}
{"id": "C62", "title": "A typed polynomial is answered with like terms combined", "statement": "For a line like 3x + y^2-x (integer coefficients, terms joined by + and -), the command line prints the sum in which every power occurs once with its total coefficient.", "quantifier": "all such lines: any number of terms, any white space", "why_tests_cant": "all lines of all lengths", "anchors": ["cli/main.cpp:main", "io/src/FromString.cpp:PreProcessInFix", "io/src/FromString.cpp:FromInFix", "src/SimplifyVisitor.cpp:TypedVisit(Add)", "io/src/InFixSerializer.cpp"]}
{"id": "C63", "title": "Printed answers can be entered again", "statement": "If the command line prints a result, entering that result gives the same result.", "quantifier": "all lines that are answered", "why_tests_cant": "all answers, of any nesting", "anchors": ["cli/main.cpp:main", "io/src/FromString.cpp:PreProcessInFix", "io/src/InFixSerializer.cpp"]}
{"id": "C64", "title": "MatchCast uses the first case that matches", "statement": "MatchCast::Execute returns the result of the first case, in the order given, whose type fits the expression and whose check succeeds; later cases have no effect; it returns null if there is none. The simplification rules for powers are applied in that way.", "quantifier": "all lists of cases and all expressions", "why_tests_cant": "any number of cases with arbitrary checks and transformers", "anchors": ["include/Oasis/MatchCast.hpp:Execute", "src/SimplifyVisitor.cpp:TypedVisit(Exponent)"]}
{"id": "C65", "title": "The JavaScript functions can be chained", "statement": "ToMathMLString(Simplify(FromInFix(s))) returns text for every string s; FromInFix returns null exactly for strings the parser rejects.", "quantifier": "all strings", "why_tests_cant": "all strings", "anchors": ["bindings/js/src/bindings.cpp"]}
{"id": "C66", "title": "PreProcessInFix keeps the words of the text", "statement": "The words of the preprocessed text are the words of the text in the same order, except that words may be cut and '*' added; in particular no two words are joined into one.", "quantifier": "all texts", "why_tests_cant": "all texts", "anchors": ["io/src/FromString.cpp:PreProcessInFix", "io/src/FromString.cpp:ImplicitMultiplication"]}
{"id": "C67", "title": "The derivative of an integer polynomial is found", "statement": "Simplify on Derivative{p, x}, where p is a sum or difference of integer multiples of powers of variables, gives the sum of the terms of the derivative, with each power of a variable occurring once and its coefficient being the integer that the power rule gives.", "quantifier": "all integer polynomials and all variables", "why_tests_cant": "polynomials of any size and nesting, any integer coefficients and exponents", "anchors": ["src/SimplifyVisitor.cpp:TypedVisit(Derivative)", "src/DifferentiateVisitor.cpp", "include/Oasis/Derivative.hpp"]}
{"id": "C68", "title": "Equals is transitive", "statement": "If a.Equals(b) and b.Equals(c) then a.Equals(c), so comparisons can be chained.", "quantifier": "all triples of expressions", "why_tests_cant": "all triples of trees of any depth", "anchors": ["include/Oasis/BinaryExpression.hpp:Equals", "include/Oasis/UnaryExpression.hpp:Equals", "src/Pi.cpp", "src/Real.cpp"]}
{"id": "C69", "title": "Like factors are combined", "statement": "Simplify turns a product of integers and positive integer powers of variables, however it is nested, into a product in which every variable occurs once, with the sum of its exponents, and there is at most one number, the product of all of them; the value is the same for all values of the variables, and simplifying again changes nothing. For doubles this holds as long as the product of the numbers and the exponents stay within 2^53.", "quantifier": "every such product, any number of factors and any nesting", "why_tests_cant": "all products of all sizes and shapes: which of the many Multiply rules fires depends on how the product is nested and which operands compare Equal", "anchors": ["src/SimplifyVisitor.cpp:TypedVisit(Multiply)", "include/Oasis/BinaryExpression.hpp:Flatten", "include/Oasis/BinaryExpression.hpp:BuildFromVector"]}
{"id": "C70", "title": "Equals decides equality of simplified products", "statement": "After simplifying, two products of integers and powers of variables are Equal exactly if they are the same product, however they were written.", "quantifier": "all pairs of such products", "why_tests_cant": "all pairs of products of all sizes and shapes", "anchors": ["include/Oasis/BinaryExpression.hpp:Equals", "src/SimplifyVisitor.cpp:TypedVisit(Multiply)"]}
{"id": "C71", "title": "FindZeros has no answer outside polynomials in one variable", "statement": "If, from left to right, the first summand that is not an integer multiple of a power of the first variable with a non-negative integer exponent is a multiple of another variable, or of a power with a fractional exponent or a NaN exponent, then FindZeros returns an empty list.", "quantifier": "all such sums, with any summands after that one, and all ways of bracketing them", "why_tests_cant": "all expressions of all sizes and all numbers", "anchors": ["src/Expression.cpp:Expression::FindZeros"]}
{"id": "C72", "title": "An integral that is not found is handed back", "statement": "Integrate returns an antiderivative, or an expression that still contains an integral; an integral it does not evaluate is returned as the same integral.", "quantifier": "all integrands and integration variables", "why_tests_cant": "all expressions, including those no rule applies to", "anchors": ["src/Add.cpp:Add::Integrate", "src/Subtract.cpp:Subtract::Integrate", "src/Multiply.cpp:Multiply::Integrate", "src/Divide.cpp:Divide::Integrate", "src/Exponent.cpp:Exponent::Integrate"]}
{"id": "C73", "title": "Polynomials are integrated", "statement": "Integrating a polynomial in one variable with integer coefficients, written as a term or as a sum or difference, gives the sum of the integrals of its terms plus the constant C, which is an antiderivative of the polynomial.", "quantifier": "all integer polynomials in one variable, of any number of terms and any nesting", "why_tests_cant": "polynomials have any number of terms and can be written in infinitely many ways", "anchors": ["src/Add.cpp:Add::Integrate", "src/Subtract.cpp:Subtract::Integrate", "src/Multiply.cpp:Multiply::Integrate", "src/Exponent.cpp:Exponent::Integrate", "src/Variable.cpp:Variable::Integrate", "src/Real.cpp:Real::Integrate"]}
{"id": "C74", "title": "Substituting a number evaluates", "statement": "Substituting a number for the variable of an expression made from that variable and numbers with + - * / and ^ gives a single number: the one that the expression with the number written in place of the variable simplifies to. For an integer polynomial at an integer it is the exact value of the polynomial.", "quantifier": "all expressions in one variable built from the five arithmetic operations, of any depth, and all numbers", "why_tests_cant": "expressions have any size and shape, and there are about 2^64 numbers", "anchors": ["src/Variable.cpp:Variable::Substitute", "include/Oasis/BinaryExpression.hpp:Substitute", "include/Oasis/UnaryExpression.hpp:Substitute", "include/Oasis/LeafExpression.hpp:Substitute"]}
{"id": "C75", "title": "Definite integrals of polynomials", "statement": "The definite integral of a polynomial in one variable with integer coefficients between two numbers is the number that is its integral between those bounds.", "quantifier": "all integer polynomials in one variable, of any number of terms and any nesting, and all bounds", "why_tests_cant": "polynomials have any number of terms and bounds range over all numbers", "anchors": ["src/Integral.cpp:Integral::IntegrateWithBounds", "src/Add.cpp:Add::Integrate", "include/Oasis/BinaryExpression.hpp:Substitute"]}
{"id": "C76", "title": "Common factors of a quotient cancel", "statement": "Simplifying the quotient of two products of integers and powers of variables gives a fraction in lowest terms as far as the variables go: the exponents of a variable are subtracted, the variable stays only on the side where its exponent was larger, and the numbers are divided into a single number, which is left out if it is 1. The value is kept wherever the quotient has one.", "quantifier": "all products of integers and positive integer powers of variables, with any number of factors and any nesting, as dividend and as divisor", "why_tests_cant": "products have any number of factors in any order and nesting, with any exponents", "anchors": ["src/SimplifyVisitor.cpp:TypedVisit(const Divide<Expression, Expression>&)"]}
{"id": "C77", "title": "A typed product is answered with like factors combined", "statement": "Typing a product of integers and powers of variables at the command line, such as 2x^3y * x, prints Success and the text of a product in which every variable occurs once, with the sum of its exponents, and at most one number, the product of the numbers. If the product is divided by a factor, the answer is the text of the quotient after cancelling that factor.", "quantifier": "all lines made of integers and positive integer powers of one-letter variables joined by * or by writing a variable after a digit, with any spacing, optionally divided by a single factor", "why_tests_cant": "lines have any number of factors in any order, with any exponents and spacing; preprocessing, parsing, simplifying and printing must all agree", "anchors": ["cli/main.cpp:main", "io/src/FromString.cpp:PreProcessInFix", "io/src/FromString.cpp:FromInFix", "src/SimplifyVisitor.cpp:TypedVisit(const Multiply<Expression, Expression>&)"]}
{"id": "C78", "title": "A typed derivative is answered with its terms combined", "statement": "Typing dd(p, x) at the command line, where p is a polynomial with integer coefficients, prints Success and the text of a sum in which every power occurs once, with its coefficient in the derivative of p.", "quantifier": "all typed polynomials (sums and differences of integers, powers of one-letter variables and integer multiples of them), all variables, any spacing", "why_tests_cant": "polynomials have any number of terms, exponents and spacing; preprocessing, parsing, differentiating, simplifying and printing must all agree", "anchors": ["cli/main.cpp:main", "io/src/FromString.cpp:PreProcessInFix", "io/src/FromString.cpp:FromInFix", "src/SimplifyVisitor.cpp:TypedVisit(const Derivative<Expression, Expression>&)"]}
{"id": "C79", "title": "A typed integral is answered with the integral of every term", "statement": "Typing in(p, x) at the command line, where p is a polynomial in x with integer coefficients, prints Success and the text of a sum of the constant C and the integral of every term of p after combining like terms.", "quantifier": "all typed polynomials in one variable whose exponents stay below 2^22, any spacing", "why_tests_cant": "polynomials have any number of terms, exponents and spacing; preprocessing, parsing, simplifying, integrating and printing must all agree", "anchors": ["cli/main.cpp:main", "io/src/FromString.cpp:PreProcessInFix", "io/src/FromString.cpp:FromInFix", "src/SimplifyVisitor.cpp:TypedVisit(const Integral<Expression, Expression>&)", "src/Add.cpp:Add::Integrate"]}
{"id": "C80", "title": "A typed polynomial is answered by an expression with its value", "statement": "Typing a polynomial with integer coefficients and positive exponents at the command line prints Success and the text of an expression that has the value of the polynomial for all values of its variables, also if terms cancel.", "quantifier": "all typed polynomials whose numbers are exact, any spacing, all values of the variables", "why_tests_cant": "there is no bound on the number of terms, and terms may merge and cancel in any order; preprocessing, parsing, simplifying and printing must all keep the value", "anchors": ["cli/main.cpp:main", "io/src/FromString.cpp:PreProcessInFix", "io/src/FromString.cpp:FromInFix", "src/SimplifyVisitor.cpp:TypedVisit(const Add<Expression, Expression>&)", "src/SimplifyVisitor.cpp:TypedVisit(const Subtract<Expression, Expression>&)"]}
{"id": "C81", "title": "A typed derivative is answered by an expression with the value of the derivative", "statement": "Typing dd(p, x) at the command line, where p is a polynomial with integer coefficients and positive exponents, prints Success and the text of an expression whose value is the derivative of p with respect to x at every point, also if terms of p cancel.", "quantifier": "all typed polynomials whose numbers are exact, all variables, any spacing, all points", "why_tests_cant": "there is no bound on the number of terms and exponents, terms may merge and cancel in any order, and the value must be right at every point", "anchors": ["cli/main.cpp:main", "io/src/FromString.cpp:FromInFix", "src/SimplifyVisitor.cpp:TypedVisit(const Derivative<Expression, Expression>&)", "src/DifferentiateVisitor.cpp", "src/SimplifyVisitor.cpp:TypedVisit(const Add<Expression, Expression>&)"]}
{"id": "C82", "title": "A typed expression is read as it is written", "statement": "A text typed in infix notation, with numbers, one-letter variables, the operators + - * / ^, parentheses, function calls, implied multiplication (2xy, 2(x+1), (x+1)(x-1)) and any white space, is read as the expression it denotes under the usual precedence and left-to-right rules.", "quantifier": "all texts of the notation, any spacing, any nesting depth", "why_tests_cant": "texts are unbounded, and the preprocessor edits the text around every parenthesis and between every two neighbouring pieces; whether an edit is harmless depends on the surrounding pieces", "anchors": ["io/src/FromString.cpp:PreProcessInFix", "io/src/FromString.cpp:FromInFix"]}
{"id": "C83", "title": "Typed arithmetic is answered with its value", "statement": "Typing an arithmetic expression over numbers at the command line prints Success and the number obtained by carrying out the operations as written in doubles.", "quantifier": "all typed arithmetic expressions, any nesting and spacing", "why_tests_cant": "unboundedly many expressions; reading, folding and printing must agree on all of them", "anchors": ["cli/main.cpp:main", "io/src/FromString.cpp:FromInFix", "src/SimplifyVisitor.cpp:TypedVisit"]}
{"id": "C84", "title": "An answer has the value of what was typed", "statement": "If the command line answers a typed expression with Success and a text, that text is the printed form of an expression which has the value of the typed expression wherever the latter has one (exact arithmetic).", "quantifier": "all typed expressions, all assignments of the variables", "why_tests_cant": "all texts and all values of the variables; the text passes through the preprocessor, the reader, the simplifier and the printer", "anchors": ["cli/main.cpp:main", "io/src/FromString.cpp:PreProcessInFix", "io/src/FromString.cpp:FromInFix", "src/SimplifyVisitor.cpp:TypedVisit", "io/src/InFixSerializer.cpp"]}
{"id": "C85", "title": "The magnitude of a matrix is its Euclidean norm", "statement": "Simplifying the magnitude of an expression that simplifies to a matrix gives a single Real: the square root of the sum of the squares of all entries (exact arithmetic).", "quantifier": "matrices of all sizes and entries", "why_tests_cant": "there is no bound on rows, columns and entries", "anchors": ["src/SimplifyVisitor.cpp:TypedVisit(const Magnitude<Expression>&)"]}
{"id": "C86", "title": "A number is read as the double nearest to it", "statement": "A decimal number in a typed text (digits, an optional point, an optional exponent, an optional sign; below 2^1023 in size) is read as the double nearest to its value.", "quantifier": "all decimal numbers of any length", "why_tests_cant": "there is no bound on the number of digits, and the reader goes through float, whose rounding shows only for some numbers", "anchors": ["io/src/FromString.cpp:FromInFix"]}
{"id": "C87", "title": "A number is printed with its value", "statement": "The text printed for a finite number is a decimal number with exactly its value.", "quantifier": "all finite doubles", "why_tests_cant": "2^64 doubles; rounding and notation depend on the digits and the exponent", "anchors": ["io/src/InFixSerializer.cpp:TypedVisit(const Real&)", "io/src/TeXSerializer.cpp:TypedVisit(const Real&)", "io/src/MathMLSerializer.cpp:TypedVisit(const Real&)"]}
{"id": "C88", "title": "Typed integer arithmetic is answered with its value", "statement": "A typed sum, difference and product of integers, with any nesting of parentheses, is answered on the command line with the numeral of its value.", "quantifier": "all integer expressions, with the machine's numbers", "why_tests_cant": "all texts and all integers; reading, arithmetic and printing each have their own bound", "anchors": ["cli/main.cpp:main", "io/src/FromString.cpp:FromInFix", "src/SimplifyVisitor.cpp:TypedVisit", "io/src/InFixSerializer.cpp:TypedVisit(const Real&)"]}
{"id": "C89", "title": "What is printed for a number is read back as this number", "statement": "Reading the text printed for a finite number gives this number.", "quantifier": "all finite doubles", "why_tests_cant": "2^64 doubles; whether the text is read back depends on sign, size and digits", "anchors": ["io/src/InFixSerializer.cpp:TypedVisit(const Real&)", "io/src/FromString.cpp:PreProcessInFix", "io/src/FromString.cpp:FromInFix"]}
{"id": "C90", "title": "Only decimal numbers are read as numbers", "statement": "If a typed word of letters, digits and points is read as a number, it is a decimal number.", "quantifier": "all words of any length", "why_tests_cant": "all words; the number conversion accepts any text that begins like a number", "anchors": ["io/src/FromString.cpp:PreProcessInFix", "io/src/FromString.cpp:FromInFix"]}
{"id": "C91", "title": "Typed decimal arithmetic is answered with its value", "statement": "If the value of a typed expression of decimal numbers and the four operations has at most five significant digits, the command line answers with a decimal number of exactly this value (0.1+0.2 is answered with 0.3).", "quantifier": "all texts of decimal arithmetic, any nesting and any digits, with the machine's numbers", "why_tests_cant": "all texts and all numbers; reading rounds to float, every operation rounds to double and printing rounds to five digits", "anchors": ["cli/main.cpp:main", "io/src/FromString.cpp:FromInFix", "src/SimplifyVisitor.cpp:TypedVisit", "io/src/InFixSerializer.cpp:TypedVisit(const Real&)"]}
{"id": "C92", "title": "The MathML text is well-formed and says what the elements say", "statement": "For every expression whose names hold no control characters, the text ToMathMLString returns is a well-formed XML document, and reading it (with its escapes, and with blanks outside of token elements ignored) gives exactly the elements the serializer made; so different elements have different texts.", "quantifier": "all expressions and names, including names with < > &", "why_tests_cant": "all trees and names; escaping, indentation and nesting interact at every depth", "anchors": ["bindings/js/src/bindings.cpp:ToMathMLString", "io/src/MathMLSerializer.cpp:MathMLSerializer"]}
{"id": "C93", "title": "Pi and integrals are shown with their signs", "statement": "In the MathML text the constant pi is shown as the Greek letter, and every integral begins with the integral sign.", "quantifier": "all integrals, all number formats", "why_tests_cant": "the claim is about every integral expression and about what a reader of the text sees, not about the elements", "anchors": ["bindings/js/src/bindings.cpp:ToMathMLString", "io/src/MathMLSerializer.cpp:TypedVisit(const Oasis::Pi&)", "io/src/MathMLSerializer.cpp:TypedVisit(const Integral<>&)"]}
{"id": "C94", "title": "Answers to typed polynomials, products and derivatives, numeral by numeral", "statement": "To a polynomial typed at the command line the answer is a sum in parentheses that shows each power which is left exactly once, in front of it the numeral of its total coefficient; the same for like factors of a typed product, and for dd(p, x). Digits mean what they usually mean, in the question and in the answer.", "quantifier": "all typed polynomials and products with integer numerals, any number of terms and variables", "why_tests_cant": "all texts; reading to single precision, double arithmetic and printing with five digits compose", "anchors": ["cli/main.cpp:main", "io/src/FromString.cpp:FromInFix", "io/src/InFixSerializer.cpp:TypedVisit(const Real&)", "src/SimplifyVisitor.cpp:TypedVisit(const Add<>&)", "src/SimplifyVisitor.cpp:TypedVisit(const Multiply<>&)", "src/DifferentiateVisitor.cpp"]}
{"id": "C95", "title": "A number times a matrix multiplies every entry", "statement": "Simplify on the product of a number and a matrix, in either order, answers the matrix of the same size whose entries are multiplied by the number; on the negation of a matrix, the matrix of the opposite entries.", "quantifier": "all numbers, all matrices of any size, all operands that simplify to them", "why_tests_cant": "all sizes and entries; several rules for products are tried before the one for matrices", "anchors": ["src/SimplifyVisitor.cpp:TypedVisit(const Multiply<>&)", "src/SimplifyVisitor.cpp:TypedVisit(const Negate<Expression>&)", "include/Oasis/Matrix.hpp:Matrix"]}
{"id": "C96", "title": "The standard identities hold whatever the operands are", "statement": "Simplify answers a+0 and 0+a with a, a-b with 0 and a*b with a^2 where a Equals b, 1*a with a, 0*a with 0, a^0 with 1, a^1 with a, 1^a with 1, 0^a with 0, (x^n)^p with x^(n*p), a^log_a(z) with z, the powers of i with 1, i, -1, -i in turn, log_a(1) with 0, log_a(a) with 1, log_a(y^n) with n*log_a(y), |i| with 1, |e*i| with |e| and |e+f*i| with (e^2+f^2)^(1/2); sums, differences and quotients of logarithms with the same base with one logarithm; c*a+d*a, c*a+a, c*a-d*a with one multiple of a; a-(x+y) with a+(-x+-y); and products of powers of the same base with one power; where the letters stand for simplified operands of any shape (numbers are computed instead).", "quantifier": "all expressions as operands", "why_tests_cant": "operands of any shape and depth; the rules are tried in an order, and an earlier rule can answer instead", "anchors": ["src/SimplifyVisitor.cpp:TypedVisit(const Add<>&)", "src/SimplifyVisitor.cpp:TypedVisit(const Subtract<>&)", "src/SimplifyVisitor.cpp:TypedVisit(const Multiply<>&)", "src/SimplifyVisitor.cpp:TypedVisit(const Exponent<>&)", "src/SimplifyVisitor.cpp:TypedVisit(const Log<>&)", "src/SimplifyVisitor.cpp:TypedVisit(const Magnitude<Expression>&)"]}
{"id": "C97", "title": "Differentiating an integral gives the integrand back", "statement": "Differentiate on Integral(f, x) with respect to x answers, and the answer has the value of f wherever f is a function of x.", "quantifier": "all integrands, all variables, all points", "why_tests_cant": "all integrands and points; whether the call returns at all depends on what Integrate answers", "anchors": ["src/DifferentiateVisitor.cpp:TypedVisit(const Integral<Expression, Expression>&)", "src/Expression.cpp:Differentiate", "include/Oasis/Integral.hpp:Integral"]}
{"id": "C98", "title": "SwapOperands exchanges the operands", "statement": "SwapOperands answers a node of the same operation with the operands exchanged; swapping again restores the node. A sum or product keeps its value, a difference changes its sign, a quotient that is not 0 becomes its inverse.", "quantifier": "all operations, all operands, all values of the variables", "why_tests_cant": "all operands and points", "anchors": ["include/Oasis/BinaryExpression.hpp:SwapOperands"]}
{"id": "C99", "title": "Integrate answers", "statement": "Integrate gives back an expression, whatever it is asked to integrate: it does not end in an exception, an abort, a null pointer or undefined behaviour.", "quantifier": "all expressions and variables", "why_tests_cant": "all expressions; which of them need integration by parts depends on what Simplify does with them", "anchors": ["src/Multiply.cpp:Multiply<Expression>::Integrate", "src/Sine.cpp:Sine<Expression>::Integrate", "src/Add.cpp:Add<Expression>::Integrate", "src/Log.cpp:Log<Expression, Expression>::Integrate"]}
{"id": "C100", "title": "Simplify evaluates derivatives, integrals and negations", "statement": "Simplify answers Derivative(a, v) with the simplified derivative of what a simplifies to, Integral(a, v) with the integral of what a simplifies to, and Negate(a) with the simplified product of -1 and what a simplifies to; it answers nothing else for them.", "quantifier": "all operands, both distribution policies", "why_tests_cant": "all operands", "anchors": ["src/SimplifyVisitor.cpp:SimplifyVisitor::TypedVisit"]}
{"id": "C101", "title": "A polynomial given to the page is shown with its value and with like terms combined", "statement": "For every polynomial with integer coefficients written on one line, the calls the web page makes (PreProcessInFix, FromInFix, Simplify, ToMathMLString) give a well-formed XML document that shows the MathML of an expression with the value of the polynomial; if two or more terms are left that expression is the sum of the combined terms.", "quantifier": "all typed polynomials, all spacings, all formats producing XML text, exact integers and IEEE doubles", "why_tests_cant": "all polynomials and all texts", "anchors": ["bindings/js/src/bindings.cpp", "io/src/FromString.cpp:PreProcessInFix", "io/src/FromString.cpp:FromInFix", "src/SimplifyVisitor.cpp", "io/src/MathMLSerializer.cpp"]}
{"id": "C102", "title": "The web page shows what the command line answers", "statement": "If the command line answers a line with the text of an expression, the calls of the web page (PreProcessInFix, FromInFix, Simplify, ToMathMLString) give a well-formed XML document showing the MathML of the same expression; and if the page shows something for a line other than a blank one or exit, the command line replies with the text of the same expression or with the serializer's error.", "quantifier": "all lines of printable text, all number formats, all numbers", "why_tests_cant": "all lines", "anchors": ["bindings/js/src/bindings.cpp", "cli/main.cpp", "io/src/FromString.cpp:PreProcessInFix"]}
{"id": "C103", "title": "Reading a text invents no variables", "statement": "Every variable of the expression FromInFix returns is a word of the text it was given.", "quantifier": "all texts, both names of the imaginary unit, all ways to read numbers", "why_tests_cant": "all texts", "anchors": ["io/src/FromString.cpp:FromInFix"]}
{"id": "C104", "title": "Operands are read in the order in which they are written", "statement": "The leaves of the expression FromInFix returns, from left to right, are the operand words of the text in the order of the text, each read as its number, as i (or j), as e or as a variable; only operands at the beginning of the text can be missing.", "quantifier": "all texts that are accepted, all ways to read numbers", "why_tests_cant": "all texts", "anchors": ["io/src/FromString.cpp:FromInFix"]}
