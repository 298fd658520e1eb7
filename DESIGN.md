# Formal model of open-algebra/Oasis

The source in /repo is read as text.  It is transcribed by hand into Gallina
(rocq/theories), function by function; each definition cites the file and
lines it models.  Nothing is extracted or generated from the C++.

## Shape of the model

* `Expr.v` – expression trees as values (`expr`), Flatten, BuildFromVector,
  the n-ary constructor, RecursiveCast, Equals, StructurallyEquivalent, the
  operand setters.
* `Num.v` – the operations on `double`, as a record of functions.  Every model
  is parameterised by it, so a theorem without hypotheses about the record
  holds for IEEE doubles.  Theorems about mathematical values assume the
  record is *exact* with respect to the reals (`Exact`, Spec), a hypothesis
  which the real-number instance is proved to satisfy.
* `Base.v` – outcomes: value, `std::expected` error, exception, contract
  violation (`gsl_lite::not_null` on null), undefined behaviour, out of fuel.
* `Simplify.v`, `Calculus.v` – SimplifyVisitor, DifferentiateVisitor and the
  Integrate overrides.  They call each other recursively without any
  decreasing measure (the C++ does not always terminate), so each visit is an
  open-recursive step function and one mutual fixpoint on a fuel ties the
  knot; "terminates" is "some fuel gives an outcome other than OutOfFuel".
  The Substitute overrides are in `Calculus.v` too.
* `FindZeros.v`, `Linear.v`, `MatrixM.v` – the algorithms of Expression.cpp,
  Linear.cpp and Matrix.cpp.
* `InFixSer.v`, `FromInFix.v`, `FromPALM.v`, `TeXSer.v`, `MathMLSer.v` – the io
  library on byte strings.
* `Frontends.v` – the command line, the JavaScript bindings and MatchCast;
  `XmlText.v` – tinyxml2's text of an element; `Numerals.v` – texts of numbers.
* `Spec.v`, `SpecText.v`, `SpecMarkup.v`, `SpecPoly.v`, `SpecPolyInt.v`, `SpecProd.v`, `SpecLine.v`, `SpecEvaluate.v`, `SpecQuot.v`, `SpecTyped.v`,
  `SpecEquals.v`, `SpecInput.v`, `SpecValue.v`, `SpecNumeral.v`, `SpecDecimal.v`, `SpecXml.v`, `SpecAnswer.v` – what the
  properties are stated in.  These files do not mention the algorithms.
* `Properties*.v` – the theorems, each with a concrete case; `*Proofs.v`,
  `*Sound.v`, `Closure.v`, `PolySem.v`, `PolyInt.v`, `PolyIntSem.v`, `ProdSem.v` – lemmas; `QNum.v` (rationals) and
  `DoubleNum.v` (IEEE doubles, Flocq's binary64) – instances of `Num.v`.

## Defect events

Some rewriting steps of SimplifyVisitor are mathematically wrong or need side
conditions which the code does not check.  The model records a ghost event
whenever such a step is taken (`Base.defect`).  Events have no influence on
any result.  The soundness theorem reads: *if no event was recorded, the
simplified expression has the value of the input wherever the input has one*.
For every event there is a `_refuted` theorem with a concrete expression whose
value the step changes.

## Semantics (Spec)

Expressions denote complex numbers (Coquelicot's `C`), variables are real.
`x^p` is defined for integer p (x <> 0 unless p > 0), for x > 0 and real p, and
is 0 for x = 0 < p.  Logarithms need positive arguments and a base other
than 1.  Undefined, Matrix and Integral have no value.

## Plan per property

| id | model | method |
|---|---|---|
| C01 | build, flatten | induction on passes: flattening is invariant under a pass |
| C02 | build | length halves each pass; depth grows by at most one per pass |
| C03 | build, denotation | fold invariant of a pass |
| C04 | rcast | induction on the pattern, relation "reorders" defined separately |
| C05 | rcast | induction on the pattern, against the same relation |
| C06 | equals | refuted (Undefined, NaN); proved for trees without Undefined when == is reflexive on the literals |
| C07 | equals | refuted by a concrete pair; proved for trees without associative nodes and Pi |
| C08 | equals, denotation | refuted (x+x+y vs x+y+y); proved for trees without associative nodes; otherwise Equals is `covered` (every operand occurs), a transitive relation, so being Equal both ways without repeated operands gives a bijection of operands |
| C09 | equals, flatten | induction through flatten; throws excluded; `rearranged` expressions at any depth by induction on the relation, the converse as for C08 |
| C10 | equals | refuted (Pi); proved for Pi-free trees |
| C11 | struct_equiv | structural induction |
| C12 | simp, denotation | refinement, rule by rule, induction on fuel |
| C13 | simp | structural induction, literal-only trees, any arithmetic |
| C14 | simp | refuted: an expression that runs out of every fuel; proved for literal trees and other fragments |
| C15 | simp | refuted by witnesses (throw, abort); each is exact |
| C16 | simp | refuted by witness if found, proved on fragments |
| C17 | simp, diff | invariant over the mutual fixpoint |
| C18 | simp | symbolic evaluation for arbitrary operands that are simplified forms |
| C19 | simp | symbolic evaluation |
| C20 | simp | refuted |
| C21 | diff, denotation | refinement, rule by rule |
| C22 | diff | refuted by witness |
| C23 | diff | refuted by witness (throw), partial positive result |
| C24 | subst, denotation | refinement using C12 |
| C25 | subst | structural induction, using C17 |
| C26 | integ | power rule, sums, constants: derivative of the result; refuted for x^-1 |
| C27 | integrate_with_bounds | case analysis |
| C28 | find_zeros | invariant of the synthetic division loop, for doubles over exact integers |
| C29 | find_zeros | refuted by witness, partial completeness |
| C30 | find_zeros | refuted by witnesses; outside them, a bound on the coefficients of quotients keeps the search within long long |
| C31 | gcf, factors | induction on the loops |
| C32 | construct_matrices | invariant of the row loop; only 0, 1 and negation are computed, so also for doubles |
| C33 | construct_matrices | refuted by witness, proved for well-formed systems, and exactly these succeed |
| C34 | matrix | list arithmetic |
| C35 | simp on matrices | symbolic evaluation; refuted for the column check of subtraction |
| C36 | infix serializer | structural induction |
| C37 | serializer + parser | simulation of the shunting yard on serialized trees; with doubles, stof and five digits in PropertiesReread.v |
| C38 | serializer + parser | refuted by witness; read back up to rounding, with doubles in PropertiesReread.v |
| C39 | parser | operator-precedence specification, induction on the token list |
| C40 | parser | invariant: stacks are never popped when empty |
| C41 | parser | refuted by witness |
| C42 | preprocessor | induction on the characters |
| C43 | PALM parser | structural induction on expressions |
| C44 | PALM parser | refuted for trailing blanks; proved for leading/inner blanks |
| C45 | PALM parser | refuted by witness |
| C46 | PALM parser | induction on operand lists |
| C47 | TeX serializer | structural induction with a bracket counter |
| C48 | TeX serializer | refuted for all expressions |
| C49 | TeX serializer | unique decoding by structural induction; refuted for matrices without rows, exact up to those |
| C50 | MathML serializer | refuted (Sine); proved for Sine-free trees |
| C51 | set_most, set_least | from C04/C05 |
| C52 | operators | from C12; corollaries of C58 and C69 for polynomials and products, and an induction over programs that add, subtract or multiply one operand at a time |
| C53 | solve_linear_systems | from C32 and C12; for integer systems from C32 and C58, so that only the equations themselves are restricted; refuted: products of numbers and sums are left out of the matrix |
| C54 | PALM parser | one invariant of every parsing function, induction on the number of words left |
| C55 | MathML serializer | induction on size |
| C56 | MathML serializer | refuted (powers of numbers); induction on the list of factors otherwise |
| C57 | MathML serializer | regrouping gives the same flattened lists; unique decoding by induction on size; exact up to the operands of Sine and the columns of matrices without rows; for doubles, short decimals have different texts because the text determines the value |
| C58 | Simplify on sums of integer terms; doubles are Flocq's binary64 | a summary of every Add, Subtract, Multiply and Negate rule on sums of terms, by induction on the expression; coefficients as integers, exact within 2^53 |
| C59 | Simplify and Equals | canonical terms of C58 are Equal when their keys and coefficients are; the other direction from term inclusion |
| C60 | command line | induction on the lines |
| C61 | command line | refuted by a line; proved for lines on which reading, simplifying and printing are known to answer (C36, C40, C58) |
| C62 | command line | reader on typed polynomials by induction on the text, then C58 |
| C63 | command line | refuted by a line; from C37 otherwise |
| C64 | MatchCast | induction on the cases; the exponent rules of Simplify are shown to be such a list |
| C65 | JavaScript bindings | refuted by a text; case analysis otherwise |
| C66 | preprocessor | refuted by "1 2"; induction on the words otherwise |
| C67 | Simplify on Derivative, Differentiate on sums of terms | refuted by the term lost in C58; otherwise the result of C58 is a plain sum, Differentiate turns each of its terms into a term of `deriv`, and simplifying those is C58 again; Coquelicot for the value |
| C68 | equals | refuted (Pi throws); induction on size through `le_assoc`, which says what Equals means on operand lists |
| C69 | Simplify on products of integers and powers of variables; doubles are Flocq's binary64 | refuted by x^2*x^2; otherwise a summary of every Multiply rule on products: silent when the operands share nothing, and what the few rules that fire on a single factor build; gathering by induction on the factor list; the value depends only on the amounts |
| C70 | Simplify and Equals | as C59, with the factors of C69 for the terms of C58 |
| C71 | find_zeros | induction over the summands before the one that does not fit |
| C72 | integ | refuted by witness; by cases for what is returned instead |
| C73 | integ on integer polynomials in one variable; doubles are Flocq's binary64 | refuted by seven terms; induction on the balanced tree that Simplify returns: Add::Integrate keeps the first operand of each operand's integral, so the number of kept terms is known, and the derivative of what is kept differs from the integrand iff a term is lost (powers are linearly independent) |
| C74 | subst on expressions in one variable built with + - * / ^, any numbers | induction on the expression: each operand becomes a literal, and Simplify folds two literals; for integer polynomials the folded number is exact when the powers are (IEEE does not fix std::pow, so exactness of integer powers is a hypothesis for doubles) |
| C75 | integrate_with_bounds on integer polynomials in one variable | refuted by three terms: Substitute is applied to the first operand of the integral only; composition of C73 and C74 gives which terms the result accounts for, for all numbers of terms; it is right for all bounds iff the number of terms is a power of two |
| C76 | visit_div with its collection loop (div_collect, div_place) on two products of the class of C69 | refuted: x/x^2 is left as it is, x^2*y/x^2 keeps x^0, (x*6)/(x*3) keeps two numbers; invariant of the collection loop over the factors of the divisor gives that all other common factors cancel, for any number type with exact integers, hence for doubles; value by a cross-multiplied identity of products |
| C77 | command line, preprocessor, infix reader, visit_mul, visit_div, infix printer on a typed line | refuted: x^2*x^2 is answered by ((x^2)^2); reading a typed product gives a product of the class of C69 (induction on the text), then C69 or C76 gives what Simplify returns and C36 that it is printed; the same for doubles; sessions of such lines never crash (C61) |
| C78 | command line, preprocessor, infix reader, Derivative simplification, infix printer on dd(p, x) | refuted: dd(x^4+x^3-x^4-x^3,x) is answered with like terms left; reading the call gives a Derivative of a polynomial of the class of C58, then C67 gives the result and its value, C36 that it is printed; the same for doubles |
| C79 | command line, preprocessor, infix reader, Integral simplification, infix printer on in(p, x) | refuted: the answer to in(x+x^2+...+x^7,x) lacks a term; the polynomial is simplified first (C58), then C73 gives the integral; value by C73 for exact numbers; the same terms for doubles |
| C80 | command line, preprocessor, infix reader, visit_add, visit_sub, infix printer on a typed polynomial | the line is read as a polynomial of the class of C58, whose simplified form has the same coefficients; the value is stated from the typed terms (SpecValue.v), not from what the reader returns; the same for doubles |
| C81 | the same and Derivative simplification, differentiation on dd(p, x) | a typed polynomial is read from left to right, so one operand of each sum is a single term; Simplify turns it into combined terms to which single terms are added (PolyComb.v, induction on the text), and differentiation keeps that shape, whatever cancels; value by the derivative of the typed terms; the same for doubles |
| C82 | preprocessor and infix reader on any text | refuted: ((1)) is rejected; SpecInput.v says what a text means (cut words into numbers and letters, insert *, grammar of SpecText.v); each step of the preprocessor is followed on the list of words (InputProofs.v); c82_needed shows that each excluded pattern is misread; a weight argument (operands minus operators) shows that the parenthesis patterns are always rejected |
| C83 | command line on arithmetic texts | refuted by C82; C82 gives the tree, C13 the number; integers by induction on the tree with exact integer arithmetic; the same for doubles |
| C84 | command line on any text | refuted: (x+y)/(x+y+z) is answered with 1; C82 gives the tree, C12 the value; polynomials with parentheses by C58 |
| C85 | the matrix rule of Magnitude | the sum over the stored entries is the double sum over rows and columns (induction on the rows); the square root by the rule for powers of literals |
| C86 | std::stof as the reader uses it | refuted: 16777217; Numerals.v scans the text and rounds m*10^e to binary32 with Flocq's division; Flocq's correctness theorems give the nearest float; SpecNumeral.v says which texts are decimal numbers |
| C87 | std::format with the general format | refuted: 123456; Numerals.v finds the leading digit, rounds to p digits and lays them out; error bounds over the reals |
| C88 | command line on integer arithmetic, IEEE doubles | refuted: 100000; the words are read exactly (SpecNumeral.v), C86 relates this to stof, C83 to the answer, C87 to the text |
| C89 | printing and reading a number | refuted: 1e+05; the shape of a printed number gives its words, C82 the tree; negative numbers by counting operands |
| C90 | which words are numbers | refuted: 1.2.3; a word is the product of its pieces by C82 |
| C91 | command line on decimal arithmetic, IEEE doubles | refuted: 16777217-16777216; SpecDecimal.v reads the words exactly and gives the error bound; Flocq's rounding theorems show that the machine stays within it, and a number that near a short decimal is printed as this decimal |
| C92 | ToMathMLString with tinyxml2's printer | SpecXml.v reads a text as tags and characters and nests them; induction on the element: the printed text adds this element and blanks; then C57 |
| C93 | the same on pi and integrals | refuted: pi is shown as &pi;; what is shown instead by C92 |
| C94 | the command line on polynomials, products and dd(p, x), with doubles, stof and five digits | SpecAnswer.v says how sums and products are shown; C62, C77, C78 for doubles, numerals read by C86 and shown by C87; refuted: six digits |
| C95 | Multiply and Negate on a number and a matrix | run of the rules for products; refuted: 0 times a matrix |
| C96 | rules of Add, Subtract, Multiply, Exponent, Log and Magnitude on operands of any shape | run of the rules in order, with the operands as unknowns |
| C97 | Differentiate on Integral nodes | composition of C26 and C21; refuted: the derivative of an integral that stays unevaluated never returns (induction on the depth) |
| C98 | SwapOperands | against the values of the node |
| C99 | integ | refuted by witness; by cases for the crash; by closure of a class of expressions for what else can happen |
| C100 | simp on Derivative, Integral and Negate nodes | in both directions, from the answers for the operands |
| C101 | the page's pipeline PreProcessInFix, FromInFix, Simplify, ToMathMLString (page_text) | composition of the reader (C58, C82), Simplify on polynomials, and the XML serializer (C92) |
| C102 | session and page_text on the same line | both read the same words; the names in the answer come from the text (C103, C17), so the XML serializer's conditions (C92) hold |
| C103 | from_infix | invariant of the operand stack |
| C104 | from_infix | invariant: the leaves of the operand stack from bottom to top are the operand words read so far |

## Trusted base

* Coq 8.16.1's kernel.
* The axioms `Print Assumptions` lists.  ASSUMPTIONS.md lists them for every
  theorem of MANIFEST.json.  They are axioms of Coq's standard library only:
  `ClassicalDedekindReals.sig_forall_dec`, `ClassicalDedekindReals.sig_not_dec`,
  `FunctionalExtensionality.functional_extensionality_dep` and
  `Classical_Prop.classic`, all through the real numbers.  Theorems that do not
  speak about real or complex values need none.  Definitions and lemmas of
  Coquelicot and Flocq are used; these libraries add no axioms of their own.
* The transcription of the C++ into the model, by hand.
* The specification files, because they say what the theorems mean.

## What is modelled

| source | model |
|---|---|
| include/Oasis/{Unary,Binary}Expression.hpp, RecursiveCast.hpp, the Equals, StructurallyEquivalent and operand functions of all node classes | `Expr.v` |
| src/SimplifyVisitor.cpp | `Simplify.v`, knot in `Calculus.v` |
| src/DifferentiateVisitor.cpp, the Integrate and Substitute overrides, Integral::IntegrateWithBounds, Expression operators | `Calculus.v` |
| src/Expression.cpp: FindZeros, GetFactors, gcf | `FindZeros.v` |
| src/Matrix.cpp, src/Linear.cpp | `MatrixM.v`, `Linear.v` |
| io/src/InFixSerializer.cpp, TeXSerializer.cpp, MathMLSerializer.cpp | `InFixSer.v`, `TeXSer.v`, `MathMLSer.v` |
| io/src/FromString.cpp, FromPALM.cpp | `FromInFix.v`, `FromPALM.v` |
| cli/main.cpp, bindings/js/src/bindings.cpp, include/Oasis/MatchCast.hpp | `Frontends.v`, `XmlText.v` (the text of ToMathMLString, after tinyxml2's documentation and io/tests/MathMLTests.cpp) |

Parameters of the model: arithmetic on `double` (`NumOps`: Flocq's binary64 in
`DoubleNum.v`, where pow and log2 stay parameters), `std::format` of a number
and `std::stof` (parameters of the readers and serializers; `Numerals.v` models
both for C86 to C91, after the C and C++ standards), Eigen's inverse in
SolveLinearSystems.

Not modelled: memory and ownership (expressions are values; Copy is the
identity), the visitor dispatch through Boost.Any (include/Oasis/Visit.hpp and
the Accept functions), C++ template instantiation and concepts (a node class
with operand types is a pattern), iostreams beyond splitting into words, the
escape codes of the command line, line
editing, taskflow, `Expression::Simplify` convenience wrappers that call
`.value()`, the Bounded* templates, Summation and DefiniteIntegral (empty
classes, used by nothing), stack overflow, the tests.
