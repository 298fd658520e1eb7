import json
C={}
def c(i,status,ths,note): C[i]={"property":i,"status":status,"theorems":ths,"note":note}
c("C01","proved",["c01_build_flatten"],"")
c("C02","proved",["c02_build_balanced"],"")
c("C03","proved",["c03_build_value","c03_nary_constructor"],"")
c("C04","proved",["c04_cast_reorders","c04_cast_value"],"")
c("C05","proved",["c05_cast_complete"],"")
c("C06","partial",["c06_refuted","c06_equals_reflexive_partial","c06_nan_not_reflexive","c06_receiver","c06_exactly","c06_doubles"],"False of the code for Undefined and NaN; proved that an expression Equals itself exactly when it contains neither, also for IEEE doubles, and that an expression that contains one Equals nothing.")
c("C07","partial",["c07_refuted","c07_equals_symmetric_partial","c07_true"],"False of the code: x+y equals (x+y)+z but not conversely. Proved for trees without associative nodes and Pi; with Pi the answer true is symmetric (c07_true), while false and a throw may change places.")
c("C08","partial",["c08_refuted","c08_meaning","c08_equals_value_partial","c08_both_ways_partial"],"False of the code: (x+x)+y equals (x+y)+y. c08_meaning says exactly what Equals compares. Proved for trees without associative nodes, and for expressions that are Equal both ways and none of whose operands Equals another one.")
c("C09","proved",["c09_equals_permutation","c09_rearranged","c09_exact","c09_pi_refuted"],"For trees without Pi, Undefined, NaN; the Pi restriction is necessary.")
c("C10","partial",["c10_refuted","c10_equals_total_partial","c10_throws","c10_exactly"],"False of the code: Pi compared with another type throws bad_cast. Proved for receivers without Pi; c10_throws: it always throws when Pi meets something else at the same place; c10_exactly: without sums, products and integrals that is the only way.")
c("C11","proved",["c11_structural_equivalence","c11_equals_implies_structure","c11_meaning"],"")
c("C12","partial",["c12_refuted","c12_simplify_value_partial","c58_value","c58_doubles"],"False of the code in several ways, each with a witness. Proved for every run during which none of the flagged rule applications (ghost events) happens; without that condition, and also in doubles, for integer polynomials (c58_value).")
c("C13","partial",["c13_refuted","c13_single_literal","c13_fold_constants_partial"],"A single literal always results. Its value is the double one except for products by a number within EPSILON of 0 and powers of 0, where the code differs.")
c("C18","proved",["c18_leaves","c18_add_zero","c18_mul_one","c18_mul_zero","c18_pow_zero","c18_pow_one","c18_sub_self","c18_add_self","c18_mul_self","c18_add_like_terms","c18_mul_powers","c18_log_self","c18_log_one","c18_i_squared"],"For any variable x and any literals of the stated kind.")
c("C19","proved",["c19_log_domain"],"")
c("C20","partial",["c20_refuted","c20_sine_dropped_partial"],"False of the code: Sine(e) simplifies to e. The partial theorem states what the code does instead.")
c("C52","partial",["c52_refuted","c52_operators_partial","c52_polynomials","c52_running","c52_doubles","c52_products","c52_running_product","c52_quotients"],"False where Simplify is wrong; proved for runs without flagged rule applications, and with no such condition for the polynomials of C58 and the products of C69, also for programs that add, subtract or multiply one operand at a time.")
c("C21","partial",["c21_refuted","c21_differentiate_partial"],"False of the code: sin(x)/2 has the answer 1/2. Proved for runs without flagged rule applications, at regular points.")
c("C22","partial",["c22_refuted","c22_inner_only","c22_simplify_nested_partial"],"False of the code: the inner variable is ignored and the operand is differentiated once. c22_inner_only states what the code does; simplifying a nested Derivative node is right in runs without flagged rule applications.")
c("C14","partial",["c14_refuted","c14_integral_loops","c14_derivative_loops","c14_bound_irrelevant","c13_single_literal","c58_value","c67_value","c69_value","c73_terms","c76_value","c97_never_returns"],"False of the code: Integral(i, x) and Derivative(Magnitude(x), x) recurse for ever; c97_never_returns gives every case in which a derivative of an unevaluated integral does. Literal expressions, integer polynomials (c58_value) with their derivatives (c67_value) and integrals (c73_terms), and the products and quotients of C69 and C76 always terminate, and the model's bound on the recursion depth decides no outcome.")
c("C15","partial",["c15_refuted","c15_throws","c15_aborts","c15_undefined_behaviour","c15_pi_throws","c15_simplify_answers_partial","c15_error_value_unused","c99_simplify_partial"],"False of the code in four ways. On the stated class only the abort and the rule for square roots of negative products remain; with integrals in it, also the null pointer of C99.")
c("C16","partial",["c16_refuted","c16_idempotent_partial","c58_idempotent","c69_idempotent"],"False of the code: x + (-1)*x gives 0*x, then 0. Proved when the first result is a leaf, for integer polynomials with two or more terms left (c58_idempotent), and for the products of C69 (c69_idempotent).")
c("C17","proved",["c17_no_new_variables","c17_integral_constant","c17_differentiate_variables"],"")
c("C23","partial",["c23_refuted","c23_differentiate_answers_partial"],"False of the code: x + sin x throws. Proved on the class of C15 up to the abort and the square-root rule.")
c("C24","partial",["c24_refuted","c24_substitute_partial","c74_substitute"],"False of the code for Derivative nodes and where Simplify is wrong. Proved for the others in runs without flagged rule applications.")
c("C25","partial",["c25_refuted","c25_integral_constant","c25_eliminates","c25_absent_variable_partial","c25_nonvariable_target_partial"],"Elimination is proved for all inputs except the constant of integration.")
c("C26","partial",["c26_refuted","c26_reciprocal","c26_seven_terms","c26_variable_C","c26_antiderivative_partial"],
  "False of the code: the integral of e^y over x is e^y + C, of x^(-1) it is C, and sums of seven powers lose a term. Proved: every result of a run without flagged rule application (IntegralRule and the simplification events) is an antiderivative, at every point where the integrand is a real function nearby. Missing: flagged runs. For integer polynomials see C73, which needs no such condition.")
c("C27","partial",["c27_refuted","c27_loose_bounds","c27_equal_bounds","c27_definite_partial","c75_definite_partial"],
  "Equal bounds always give 0 (full). A non-null result of a run without flagged rule application is the Riemann integral of every continuous integrand between the bounds. Refuted in general: the integral of e^y over x from 0 to 2 is given as 0.")
c("C28","proved",["c28_only_roots","c28_poly_value","c28_zero_leading","c28_integers","c28_doubles"],"Every reported expression, rational or from the linear and quadratic formulas, is a root, for exact arithmetic and a non-zero highest coefficient. c28_doubles: in IEEE doubles every reported quotient of two literals is exactly a root; the linear and quadratic formulas round there.")
c("C29","partial",["c29_refuted","c29_missed_divisor","c29_rational_roots_partial","c29_low_degree","c29_integers_partial","c29_doubles_partial"],"False of the code: x^3 - 1 has no result, x^3+3x^2+2x+6 misses -3. Proved for the numerators and denominators that are tried, and completely for degrees 1 and 2 with a constant term; the former also for IEEE doubles.")
c("C30","partial",["c30_refuted","c30_zero_constant","c30_negative_exponent","c30_find_zeros_partial","c30_doubles_partial","c30_answers_partial","c30_answers_doubles_partial"],"False of the code: x^2+x divides by zero, 1/x indexes a vector with -1. Proved, also for IEEE doubles, for integer polynomials with a constant term up to signed overflow, and without overflow when the sum of the coefficients' magnitudes times (n+1)! times |a0|^(n+1) is below 2^63.")
c("C31","partial",["c31_gcf","c31_gcf_zero","c31_refuted","c31_factors_partial","c31_factor_pairs"],"gcf is proved in full. getAllFactors(6) misses 3; proved: exactly the divisors up to the square root and n itself.")
c("C32","proved",["c32_construct","c32_doubles","c32_linear_value","c32_repeated_terms"],"For any number of equations; c32_repeated_terms shows that repeated variables in one equation overwrite each other.")
c("C33","partial",["c33_refuted","c33_not_a_sum","c33_too_many_variables","c33_construct_partial","c33_exactly","c33_solve_exactly"],"False of the code: an equation that is not a sum dereferences null, more variables than equations write out of range. Proved for the rest; c33_exactly says that these are the only two ways to fail and when each system succeeds.")
c("C34","proved",["c34_constructor","c34_transpose","c34_transpose_twice","c34_identity"],"")
c("C35","partial",["c35_refuted","c35_equal_matrices","c35_add","c35_sub_partial","c35_mul_partial","c35_sub_equal","c35_mul_equal","c35_sub_columns"],"Sums are proved in full. False for equal operands (A-A is the number 0, A*A stays A^2) and for differences with different numbers of columns (undefined behaviour); c35_sub_equal, c35_mul_equal and c35_sub_columns prove what happens there for all matrices.")
c("C53","partial",["c53_refuted","c53_lost_term","c53_solution_partial","c53_integers_partial","c53_doubles","c53_augmented"],"False of the code: the product in 2*(x+y)+z-6 is silently left out of the matrix (c53_lost_term). Proved for all systems of n integer equations in n unknowns in the class of C58 (c53_integers_partial; c53_doubles: the matrix holds the coefficients exactly in IEEE doubles), and for other runs without flagged simplifications whose results are sums of distinct terms. Missing: products of numbers and sums, and systems that make SolveLinearSystems crash (C33). Eigen's inverse is a parameter.")
c("C36","proved",["c36_total","c36_balanced"],"")
c("C37","partial",["c37_refuted","c37_spaced_partial","c37_preprocessed_partial","c37_doubles_partial"],"False of the code: the preprocessor turns ((x+y)+z) into (*(x+y)+z). Proved for every expression when only the spacing pass is used, and with PreProcessInFix when no parentheses are adjacent; for the machine's numbers when literals were typed with at most five digits.")
c("C38","partial",["c38_refuted","c38_refuted_unprepared","c38_reread_partial","c38_value_partial","c38_doubles_partial"],"False of the code: pi reads as p*i. Proved for every tree of binary operators over literals, names, i, e, up to the rounding of literals to five digits; for the machine's positive numbers from 0.0001 to 99999.5 that is a relative error of at most 6e-5.")
c("C39","proved",["c39_precedence","c39_total"],"")
c("C40","proved",["c40_answers"],"")
c("C41","partial",["c41_refuted","c41_counts_partial","c41_accepts_partial","c41_ignored"],"False of the code: 'x y' is read as y (c41_ignored: any operands in front of an accepted text are ignored). Unbalanced parentheses and missing operands are rejected, and everything well-formed is accepted with the right tree.")
c("C42","proved",["c42_preprocess"],"")
c("C43","proved",["c43_round_trip","c43_short_forms_rejected"],"The short forms r and v of docs/PALM.bnf are not known to the parser.")
c("C44","partial",["c44_refuted","c44_whitespace_partial","c44_trailing_blank_rejected"],"False of the code: white space after the last word is an error. White space before and between words never matters.")
c("C45","partial",["c45_refuted","c45_accepted_partial","c45_grammar_accepted","c45_extra_rejected"],"False of the code: '( + ( i ) ( j ) ( )' is accepted as i + i. What is accepted is read from words of the text in order; the grammar is accepted, text after it is not.")
c("C46","proved",["c46_nary"],"")
c("C54","proved",["c54_total"],"")
c("C47","proved",["c47_well_nested"],"")
c("C48","partial",["c48_refuted","c48_exchanged_partial"],"False of the code: the two operands of every derivative are exchanged.")
c("C49","partial",["c49_refuted","c49_exact","c49_unique_partial"],"False for matrices without rows, whose number of columns is not printed; proved that nothing else is lost.")
c("C50","partial",["c50_refuted","c50_operands_partial","c50_sine_dropped"],"False of the code: the operand of Sine is dropped. Proved for expressions without Sine.")
c("C55","proved",["c55_valid"],"")
c("C56","partial",["c56_refuted","c56_numerals_partial"],"False of the code: 2*3^2 is shown as 23^2. A power of a number is the only way two numerals touch.")
c("C57","partial",["c57_refuted","c57_regroup_same","c57_exact","c57_unique_partial","c57_value_partial","c57_doubles","c57_typed"],"False for Sine nodes, which all have the same element, and for matrices without rows. Proved, in both directions, that nothing but the operands of Sine and the columns of matrices without rows is lost, for numbers with different texts; with the machine's formats these are all decimals of at most 5 digits, and all finite matrix entries (c57_doubles).")
c("C58","partial",["c58_refuted","c58_lost_term","c58_like_terms_partial","c58_value","c58_idempotent","c58_doubles","c58_alike_partial"],"False of the code: x + (-1)*x stays 0*x, and (x+y)+((x+y)+z) loses z. Proved, for exact arithmetic and for IEEE doubles within 2^53, when operands can be told apart and two or more terms are left. Also proved for like terms alone: one term with the total coefficient, or 0.")
c("C59","partial",["c59_refuted","c59_decides_partial"],"False of the code: x+y Equals (x+y)+z. Proved: the same polynomials simplify to Equal results, and results that are Equal both ways come from the same polynomial.")
c("C60","proved",["c60_lines","c60_reply","c60_no_reply"],"")
c("C61","partial",["c61_refuted","c61_only_simplify","c61_harmless_partial","c61_products_partial","c61_calls_partial","c61_texts_partial"],"False of the code: i^(0-1) throws an exception nobody catches. Proved: a crash can only come from Simplify on an expression that was read; sessions of typed polynomials, typed products and quotients (C77), derivatives and integrals of typed polynomials (C78, C79), typed arithmetic (C83), polynomials with parentheses (C84), rejected texts, blank lines and exit never crash.")
c("C62","partial",["c62_refuted","c62_typed_partial","c62_doubles","c62_alike_partial"],"False of the code: x+y-y is answered by ((x+y)+(-1*y)). Proved, also for IEEE doubles, when two or more terms are left. Also proved for like terms alone.")
c("C63","partial",["c63_refuted","c63_again_partial"],"False of the code: x+y+z+w is answered by ((x+y)+(z+w)), which is rejected. Proved for answers without adjacent parentheses that Simplify leaves alone.")
c("C64","proved",["c64_first_case","c64_exponent_cases"],"")
c("C65","partial",["c65_refuted","c65_chain_partial"],"False of the code: a null pointer is dereferenced for texts that are rejected. Proved: what each function returns, and that the chain works whenever the text is read and Simplify answers.")
c("C66","partial",["c66_refuted","c66_separated_partial","c66_glued"],"False of the code: 1 2 becomes 12. Proved when punctuation stands between any two words; c66_glued: for every text, words with only white space between them are glued together and nothing else happens to the words.")
c("C67","partial",["c67_refuted","c67_derivative_partial","c67_value","c67_doubles"],"False of the code: d/dz of (x+y)+((x+y)+z) is 0. Proved, for exact arithmetic and for IEEE doubles within 2^53, for the class of C58 when two or more terms are left; the value of the result is the real derivative also when fewer are left.")
c("C68","partial",["c68_refuted","c68_transitive_partial","c68_never_false"],"False of the code where Pi makes a comparison throw; proved for receivers without Pi; c68_never_false: for all expressions the third comparison answers true or throws.")
c("C69","partial",["c69_refuted","c69_lost_factor","c69_like_factors_partial","c69_value","c69_idempotent","c69_doubles"],"False of the code: x^2*x^2 becomes (x^2)^2, and (x*y)*((x*y)*z) loses z. Proved, for exact arithmetic and for IEEE doubles within 2^53, for products nested in any way in which of two operands that share a variable, or both have a number, one is a single factor that is a plain variable or differs from what the other has.")
c("C70","partial",["c70_refuted","c70_decides_partial"],"False of the code: x*y Equals (x*y)*z. Proved on the class of C69: the same products simplify to Equal results, and results that are Equal both ways come from the same product.")
c("C71","proved",["c71_two_variables","c71_fractional_exponent","c71_doubles"],"")
c("C72","partial",["c72_refuted","c72_no_variable","c72_never_evaluated","c72_powers","c72_quotients","c72_products","c72_sums","c72_logarithms","c72_logarithms_linear","c72_logarithm_of_x","c72_logarithms_constant","c72_bases","c72_bases_constant","c72_own_base","c72_parts"],"False of the code: the integral of y^2 + z over x is given as y^2 + z. Proved: which inputs come back as the same integral, and which sums and differences come back themselves. Also, for logarithms and for products integrated by parts: what is answered in each case (C99 for the products that crash). Missing: which inputs fall into which case is left to what Simplify answers.")
c("C73","partial",["c73_refuted","c73_terms","c73_term","c73_exact","c73_antiderivative_partial","c73_doubles"],"False of the code: x + x^2 + ... + x^7 loses the term x^6/6. Proved: exactly how many terms are kept; the result is an antiderivative if and only if the number of terms is a power of two or the sum of two powers of two; the terms of the result, also in IEEE doubles with their rounding. Missing: negations and multiples of sums at the top, sums that Simplify cannot take apart (C58), exponents from 2^22 on.")
c("C74","proved",["c74_substitute","c74_machine","c74_polynomial","c74_rationals","c74_doubles"],"For doubles the exact value of a polynomial needs std::pow to be exact on integers, which is a hypothesis of c74_doubles.")
c("C75","partial",["c75_refuted","c75_terms","c75_term","c75_exact","c75_definite_partial","c75_term_value","c75_doubles"],"False of the code: the integral of x + x^2 + x^3 from 0 to 1 is given as 7/12. Proved: which terms the result accounts for, that a single term is right, and that the result is right for all bounds if and only if the number of terms is a power of two.")
c("C76","partial",["c76_refuted","c76_zero_power","c76_two_numbers","c76_cancels_partial","c76_value","c76_doubles"],"False of the code: x/x^2 is left as it is, equal powers leave x^0, and a plain variable that cancels before the numbers meet leaves two numbers. Proved: in all other cases of products that C69 covers, the factors cancel and the value is kept, for any number type with exact integers and for IEEE doubles. Missing: the excluded cases, whose outcome is only shown on witnesses.")
c("C77","partial",["c77_refuted","c77_typed_partial","c77_doubles","c77_quotient_partial"],"False of the code: x^2*x^2 is answered by ((x^2)^2). Proved: a typed product in which each factor is a plain variable or differs from what the factors before it have of the same kind is answered by the combined product, and a typed product divided by a factor by the cancelled quotient, for any number type with exact integers and (products) for IEEE doubles. Missing: equal powers or numbers, the numbers 0 and 1, parentheses.")
c("C78","partial",["c78_refuted","c78_typed_partial","c78_value","c78_doubles"],"False of the code: dd(x^4+x^3-x^4-x^3,x) is answered by a sum with like terms left in it. Proved: if two or more terms of the polynomial are left, or it is a single term, the answer is the text of a sum with the coefficients of the derivative, of its combined terms if there are two or more, and its value is the derivative; for any number type with exact integers, and for IEEE doubles if pow squares exactly. Missing: polynomials of several terms of which one or none is left; for these C81 gives the value of the answer.")
c("C79","partial",["c79_refuted","c79_typed_partial","c79_term","c79_value","c79_doubles"],"False of the code: in the answer to in(x+x^2+...+x^7,x) a term is missing. Proved: if two or more terms are left the answer is the text of a balanced sum of C and the integrals of as many terms as the two leading binary digits of their number say (all, if it is a power of two or the sum of two); it is an antiderivative exactly in that case (exact numbers); a single term is always integrated. Missing: polynomials of several terms of which one or none is left, other variables.")
c("C80","proved",["c80_typed_value","c80_doubles"],"Proved for any number type with exact integers and for IEEE doubles within 2^53.")
c("C81","proved",["c81_typed_derivative","c81_doubles"],"Proved for any number type with exact integers and squares, and for IEEE doubles if pow squares integers exactly, as long as the largest exponent times the sum of the magnitudes of the coefficients is within 2^53.")
c("C82","partial",["c82_refuted","c82_needed","c82_reads_partial","c82_unique","c82_rejected","c82_rejected_answer","c82_exact"],"False of the code: ((1)), (2(3)) and log(2,(3)) are rejected, 1 2 is read as 12, and x is lost in (1)2x. Proved for all texts without these patterns (two parentheses of the same kind side by side, a parenthesis after a comma, two words with only white space between them, a word of several pieces after a closing parenthesis); each pattern is shown to break the claim, and the parenthesis patterns always do: such texts are rejected.")
c("C83","partial",["c83_refuted","c83_arithmetic_partial","c83_number","c83_integers_partial","c83_doubles"],"False of the code: ((1)) is rejected. Proved for the texts of C82 and the arithmetic of C13; sums, differences and products of integers are exact, also in IEEE doubles within 2^53; the answer is always a number.")
c("C84","partial",["c84_refuted","c84_value_partial","c84_polynomials_partial"],"False of the code: (x+y)/(x+y+z) is answered with 1. Proved for the texts of C82 whenever Simplify uses none of the rules that C12 shows to change the value, and unconditionally for polynomials with parentheses of the class of C58.")
c("C85","proved",["c85_magnitude"],"For number types whose pow is exact on squares and square roots.")
c("C86","partial",["c86_refuted","c86_float_partial","c86_exact_partial","c86_integers_partial","c86_overflow"],"False of the code: 16777217 is read as 16777216, because numbers are read as float. Proved: every decimal number between 2^-126 and 2^128 is read as the nearest float, within 2^-24 of its size, and exactly if 24 binary digits hold it, e.g. integers up to 2^24. Integers from 2^128 on are read as variables.")
c("C87","partial",["c87_refuted","c87_accuracy_partial","c87_integers_partial","c87_short_partial","c87_seventeen","c87_tex"],"False of the code: 123456 is printed as 1.2346e+05. Proved: the text is always a decimal number within half a unit of the last of the p digits printed; integers of at most p digits are printed as their numerals; a number within an eighth of a unit in digit p+1 of a decimal with at most p digits is printed as this decimal; 17 digits tell all finite numbers apart; the texts never disturb TeX.")
c("C88","partial",["c88_refuted","c88_integers_partial","c88_rounded_partial"],"False of the code: 100000 is answered with 1e+05. Proved for numbers up to 2^24 and results up to 2^53: answers of at most 5 digits are exact numerals (or -0), all others are rounded to 5 digits. IEEE double arithmetic, float reading and formatting are all modelled.")
c("C89","partial",["c89_refuted","c89_fixed_partial","c89_integers_partial","c89_short_partial","c89_scientific","c89_negative"],"False of the code: 1e+05 is read as 1*e+5. Proved: positive numbers printed without exponent are read back up to a relative error of 6e-5, positive integers below 100000 and typed decimals of at most 5 digits exactly; numbers with an exponent are always misread as a sum with Euler's number, negative numbers are always rejected.")
c("C90","partial",["c90_refuted","c90_words_partial","c90_decimal_partial","c90_ignored","c90_letters"],"False of the code: 1.2.3 is read as 1.2. Proved: a word that is read as a number has digits and points only and is a decimal number if it has one point at most; from the second point on everything is ignored. Words after a closing parenthesis are not cut and can be infinity or NaN (c90_letters).")
c("C91","partial",["c91_refuted","c91_error_partial","c91_accuracy_partial","c91_positive_partial"],"False of the code: 16777217-16777216 is answered with 0. Proved: if a running error bound (2^-24 per number, 2^-53 per operation) stays below an eighth of a unit in the sixth digit, the answer has exactly the value; this covers all sums, products and quotients of at most 20 numbers with results between 10^-6 and 10^38. Missing: cancellation and results out of range.")
c("C92","proved",["c92_document","c92_determines","c92_doubles","c92_apart"],"For names without control characters; tinyxml2's printer is modelled after its documentation and the texts io/tests/MathMLTests.cpp expects. c92_doubles and c92_apart are about the machine's numbers.")
c("C93","partial",["c93_refuted","c93_names_partial"],"False of the code: the serializer puts &pi; and &int; into texts, and printing escapes the ampersand. Proved: pi is always shown as the four characters &pi; and every integral begins with the five characters &int;.")
c("C94","partial",["c94_refuted","c94_polynomial_partial","c94_product_partial","c94_derivative_partial","c94_alike_partial"],"False of the code: 100000 is answered with 1e+05. Proved for the machine's numbers when two or more terms are left (for products: each factor is a plain variable or differs from what came before), numbers typed are at most 2^24 and numbers shown have at most five digits. For derivatives, if pow squares integers exactly. Also proved for like terms alone, unless their total is 0, or 1 in front of a power.")
c("C95","partial",["c95_refuted","c95_scale_partial","c95_exact_partial","c95_negation","c95_zero"],"False of the code: 0 times a matrix is the number 0 (c95_zero: for every matrix and every number within EPSILON of 0). Proved for all numbers that are not within EPSILON of 0, and for negations.")
c("C96","proved",["c96_add_zero","c96_sub_equal","c96_mul_one","c96_mul_zero","c96_mul_equal","c96_i_squared","c96_power_zero","c96_power_one","c96_one_power","c96_zero_power","c96_power_power","c96_power_log","c96_i_power","c96_log_one","c96_log_base","c96_log_power","c96_mag_number","c96_mag_i","c96_mag_times_i","c96_mag_plus_i","c96_mag_complex","c96_add_logs","c96_sub_logs","c96_div_logs","c96_add_equal","c96_add_multiples","c96_add_one_more","c96_sub_one_less","c96_sub_multiple","c96_sub_multiples","c96_sub_sum","c96_sub_difference","c96_mul_by_power","c96_mul_power_by","c96_mul_powers","c96_mul_multiple"],"One theorem for each identity, for any operands, with the side conditions in the statement: operands that are numbers are computed instead (C13), a^log_a(z) needs a base that is not itself a power, and the answers to 1*a, (x^n)^p, log_a(y^n), |e*i| and |e+f*i| are simplified once more.")
c("C97","partial",["c97_refuted","c97_never_returns","c97_never_returns_classes","c97_delegates","c97_integrand_partial"],"False of the code: where Integrate answers with the unevaluated integral, for example for -x, Differentiate on that integral never returns. Proved: it never returns in all those cases; otherwise the answer is the derivative of what Integrate answers, and has the value of the integrand for runs without flagged rule applications.")
c("C98","proved",["c98_exchanged","c98_value_kept","c98_sign_changed","c98_inverted"],"")
c("C99","partial",["c99_refuted","c99_parts_crash","c99_sines","c99_simplify_partial","c99_never_null_partial","c99_integrate_partial"],"False of the code: integrating x*y^2 over x dereferences a null pointer, and so does every product that needs integration by parts and whose second factor is handed back as an integral (c99_parts_crash); the integral of a sine is a null pointer. Proved for integrands made of numbers, variables, e, + - * / ^, logarithms, negations, derivatives and integrals: unless a square root of a negative product was taken, no exception is thrown, no null pointer is returned, and the only undefined behaviour is that null pointer. Missing: the absence of aborts, and the expressions with i, pi, matrices, sines and magnitudes.")
c("C100","proved",["c100_derivative","c100_integral","c100_negation","c100_derivative_only","c100_integral_only","c100_negation_only"],"What Differentiate and Integrate answer is the subject of C21, C26, C67, C72, C73 and C97.")
c("C101","proved",["c101_polynomials","c101_doubles","c101_text"],"c101_text: for every text of C82 the page shows the document of what Simplify answers.")
c("C102","proved",["c102_page","c102_command_line","c102_failures"],"White space at the ends of the line does not matter for either (preprocess_trim). c102_failures: where the command line replies with an error of the reader or of Simplify the page dereferences a null pointer (C65), and both crash in the same way.")
c("C103","proved",["c103_variables"],"")
c("C104","proved",["c104_order"],"c41_ignored shows that operands at the beginning are indeed left out.")
c("C51","proved",["c51_set_most","c51_set_least"],"")

json.dump({"claims":[C[k] for k in sorted(C)]},open('/verif/MANIFEST.json','w'),indent=1)
