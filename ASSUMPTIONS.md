# What Print Assumptions lists for each theorem of MANIFEST.json

Generated by tools/gen_assumptions.py. Every axiom is one of Coq's standard library.

## Closed under the global context (no axioms)

* `PropertiesTree.c01_build_flatten`
* `PropertiesTree.c02_build_balanced`
* `PropertiesTree.c03_nary_constructor`
* `PropertiesTree.c04_cast_reorders`
* `PropertiesTree.c05_cast_complete`
* `PropertiesTree.c06_refuted`
* `PropertiesTree.c06_equals_reflexive_partial`
* `PropertiesTree.c06_nan_not_reflexive`
* `PropertiesExact.c06_receiver`
* `PropertiesExact.c06_exactly`
* `PropertiesTree.c07_refuted`
* `PropertiesTree.c07_equals_symmetric_partial`
* `PropertiesExact.c07_true`
* `PropertiesTree.c08_meaning`
* `PropertiesTree.c09_equals_permutation`
* `PropertiesTree.c09_rearranged`
* `PropertiesTree.c09_exact`
* `PropertiesTree.c09_pi_refuted`
* `PropertiesTree.c10_refuted`
* `PropertiesTree.c10_equals_total_partial`
* `PropertiesExact.c10_throws`
* `PropertiesExact.c10_exactly`
* `PropertiesNodes.c100_derivative`
* `PropertiesNodes.c100_integral`
* `PropertiesNodes.c100_negation`
* `PropertiesNodes.c100_derivative_only`
* `PropertiesNodes.c100_integral_only`
* `PropertiesNodes.c100_negation_only`
* `PropertiesPage.c101_text`
* `PropertiesAgree.c102_page`
* `PropertiesAgree.c102_command_line`
* `PropertiesAgree.c102_failures`
* `PropertiesAgree.c103_variables`
* `PropertiesAgree.c104_order`
* `PropertiesTree.c11_structural_equivalence`
* `PropertiesTree.c11_equals_implies_structure`
* `PropertiesTree.c11_meaning`
* `PropertiesSimplify.c13_single_literal`
* `PropertiesSimplify.c13_fold_constants_partial`
* `PropertiesSafety.c14_refuted`
* `PropertiesSafety.c14_integral_loops`
* `PropertiesSafety.c14_derivative_loops`
* `PropertiesSafety.c14_bound_irrelevant`
* `PropertiesPolyInt.c73_terms`
* `PropertiesFundamental.c97_never_returns`
* `PropertiesSafety.c15_refuted`
* `PropertiesSafety.c15_throws`
* `PropertiesSafety.c15_aborts`
* `PropertiesSafety.c15_undefined_behaviour`
* `PropertiesSafety.c15_pi_throws`
* `PropertiesSafety.c15_simplify_answers_partial`
* `PropertiesSafety.c15_error_value_unused`
* `PropertiesParts.c99_simplify_partial`
* `PropertiesSafety.c16_refuted`
* `PropertiesSafety.c16_idempotent_partial`
* `PropertiesPoly.c58_idempotent`
* `PropertiesProd.c69_idempotent`
* `PropertiesSafety.c17_no_new_variables`
* `PropertiesSafety.c17_integral_constant`
* `PropertiesSafety.c17_differentiate_variables`
* `PropertiesSimplify.c18_leaves`
* `PropertiesSimplify.c18_add_zero`
* `PropertiesSimplify.c18_mul_one`
* `PropertiesSimplify.c18_mul_zero`
* `PropertiesSimplify.c18_pow_zero`
* `PropertiesSimplify.c18_pow_one`
* `PropertiesSimplify.c18_sub_self`
* `PropertiesSimplify.c18_add_self`
* `PropertiesSimplify.c18_mul_self`
* `PropertiesSimplify.c18_add_like_terms`
* `PropertiesSimplify.c18_mul_powers`
* `PropertiesSimplify.c18_log_self`
* `PropertiesSimplify.c18_log_one`
* `PropertiesSimplify.c18_i_squared`
* `PropertiesSimplify.c19_log_domain`
* `PropertiesSimplify.c20_sine_dropped_partial`
* `PropertiesCalculus.c23_refuted`
* `PropertiesSafety.c23_differentiate_answers_partial`
* `PropertiesEvaluate.c74_substitute`
* `PropertiesSubst.c25_integral_constant`
* `PropertiesSubst.c25_eliminates`
* `PropertiesSubst.c25_nonvariable_target_partial`
* `PropertiesIntegral.c27_loose_bounds`
* `PropertiesIntegral.c27_equal_bounds`
* `PropertiesZeros.c28_zero_leading`
* `PropertiesZeros.c30_refuted`
* `PropertiesZeros.c30_zero_constant`
* `PropertiesZeros.c31_gcf`
* `PropertiesZeros.c31_gcf_zero`
* `PropertiesZeros.c31_refuted`
* `PropertiesZeros.c31_factors_partial`
* `PropertiesZeros.c31_factor_pairs`
* `PropertiesLinear.c33_refuted`
* `PropertiesLinear.c33_not_a_sum`
* `PropertiesLinear.c33_too_many_variables`
* `PropertiesLinear.c33_construct_partial`
* `PropertiesLinearExact.c33_exactly`
* `PropertiesLinearExact.c33_solve_exactly`
* `PropertiesMatrix.c34_constructor`
* `PropertiesMatrix.c34_transpose`
* `PropertiesMatrix.c34_transpose_twice`
* `PropertiesMatrix.c34_identity`
* `PropertiesMatrix.c35_equal_matrices`
* `PropertiesMatrix.c35_add`
* `PropertiesMatrix.c35_sub_partial`
* `PropertiesMatrixRest.c35_sub_equal`
* `PropertiesMatrixRest.c35_mul_equal`
* `PropertiesMatrixRest.c35_sub_columns`
* `PropertiesInFix.c36_total`
* `PropertiesInFix.c36_balanced`
* `PropertiesInFix.c37_refuted`
* `PropertiesInFix.c37_spaced_partial`
* `PropertiesInFix.c37_preprocessed_partial`
* `PropertiesInFix.c38_reread_partial`
* `PropertiesInFix.c39_precedence`
* `PropertiesInFix.c39_total`
* `PropertiesInFix.c40_answers`
* `PropertiesInFix.c41_refuted`
* `PropertiesInFix.c41_counts_partial`
* `PropertiesInFix.c41_accepts_partial`
* `PropertiesExact.c41_ignored`
* `PropertiesInFix.c42_preprocess`
* `PropertiesPalm.c43_round_trip`
* `PropertiesPalm.c43_short_forms_rejected`
* `PropertiesPalm.c44_refuted`
* `PropertiesPalm.c44_whitespace_partial`
* `PropertiesPalm.c44_trailing_blank_rejected`
* `PropertiesPalm.c45_refuted`
* `PropertiesPalm.c45_accepted_partial`
* `PropertiesPalm.c45_grammar_accepted`
* `PropertiesPalm.c45_extra_rejected`
* `PropertiesTeX.c47_well_nested`
* `PropertiesTeX.c48_refuted`
* `PropertiesTeX.c48_exchanged_partial`
* `PropertiesTeX.c49_refuted`
* `PropertiesTeX.c49_exact`
* `PropertiesTeX.c49_unique_partial`
* `PropertiesMathML.c50_refuted`
* `PropertiesMathML.c50_operands_partial`
* `PropertiesMathML.c50_sine_dropped`
* `PropertiesTree.c51_set_most`
* `PropertiesTree.c51_set_least`
* `PropertiesOperators.c52_running_product`
* `PropertiesQuot.c52_quotients`
* `PropertiesLinearPoly.c53_lost_term`
* `PropertiesLinear.c53_augmented`
* `PropertiesPalm.c54_total`
* `PropertiesMathML.c55_valid`
* `PropertiesMathML.c56_refuted`
* `PropertiesMathML.c56_numerals_partial`
* `PropertiesMathML.c57_regroup_same`
* `PropertiesMathML.c57_exact`
* `PropertiesMathML.c57_unique_partial`
* `PropertiesPoly.c58_refuted`
* `PropertiesPoly.c58_lost_term`
* `PropertiesPoly.c58_like_terms_partial`
* `PropertiesLike.c58_alike_partial`
* `PropertiesPoly.c59_refuted`
* `PropertiesPoly.c59_decides_partial`
* `PropertiesFrontends.c60_lines`
* `PropertiesFrontends.c60_reply`
* `PropertiesFrontends.c60_no_reply`
* `PropertiesFrontends.c61_refuted`
* `PropertiesFrontends.c61_only_simplify`
* `PropertiesFrontends.c61_harmless_partial`
* `PropertiesTyped.c61_products_partial`
* `PropertiesTypedValue.c61_calls_partial`
* `PropertiesFrontends.c62_refuted`
* `PropertiesFrontends.c62_typed_partial`
* `PropertiesLike.c62_alike_partial`
* `PropertiesFrontends.c63_refuted`
* `PropertiesFrontends.c63_again_partial`
* `PropertiesFrontends.c64_first_case`
* `PropertiesFrontends.c64_exponent_cases`
* `PropertiesFrontends.c65_refuted`
* `PropertiesFrontends.c65_chain_partial`
* `PropertiesFrontends.c66_refuted`
* `PropertiesFrontends.c66_separated_partial`
* `PropertiesExact.c66_glued`
* `PropertiesPolyDiff.c67_refuted`
* `PropertiesPolyDiff.c67_derivative_partial`
* `PropertiesTree.c68_transitive_partial`
* `PropertiesExact.c68_never_false`
* `PropertiesProd.c69_refuted`
* `PropertiesProd.c69_lost_factor`
* `PropertiesProd.c69_like_factors_partial`
* `PropertiesProd.c70_refuted`
* `PropertiesProd.c70_decides_partial`
* `PropertiesZerosInt.c71_two_variables`
* `PropertiesZerosInt.c71_fractional_exponent`
* `PropertiesUnevaluated.c72_no_variable`
* `PropertiesUnevaluated.c72_never_evaluated`
* `PropertiesUnevaluated.c72_powers`
* `PropertiesUnevaluated.c72_quotients`
* `PropertiesUnevaluated.c72_products`
* `PropertiesUnevaluated.c72_sums`
* `PropertiesParts.c72_logarithms`
* `PropertiesParts.c72_logarithms_linear`
* `PropertiesParts.c72_logarithm_of_x`
* `PropertiesParts.c72_logarithms_constant`
* `PropertiesParts.c72_bases`
* `PropertiesParts.c72_bases_constant`
* `PropertiesParts.c72_own_base`
* `PropertiesParts.c72_parts`
* `PropertiesPolyInt.c73_term`
* `PropertiesEvaluate.c74_machine`
* `PropertiesEvaluate.c74_polynomial`
* `PropertiesDefinite.c75_terms`
* `PropertiesDefinite.c75_term`
* `PropertiesQuot.c76_refuted`
* `PropertiesQuot.c76_zero_power`
* `PropertiesQuot.c76_two_numbers`
* `PropertiesQuot.c76_cancels_partial`
* `PropertiesTyped.c77_refuted`
* `PropertiesTyped.c77_typed_partial`
* `PropertiesTyped.c77_quotient_partial`
* `PropertiesTypedCalculus.c78_refuted`
* `PropertiesTypedCalculus.c78_typed_partial`
* `PropertiesTypedCalculus.c79_typed_partial`
* `PropertiesTypedCalculus.c79_term`
* `PropertiesInput.c82_refuted`
* `PropertiesInput.c82_needed`
* `PropertiesInput.c82_reads_partial`
* `PropertiesInput.c82_unique`
* `PropertiesInput.c82_rejected`
* `PropertiesInput.c82_rejected_answer`
* `PropertiesInput.c82_exact`
* `PropertiesInput.c83_arithmetic_partial`
* `PropertiesInput.c83_number`
* `PropertiesInput.c83_integers_partial`
* `PropertiesXml.c92_document`
* `PropertiesXml.c92_determines`
* `PropertiesXml.c93_refuted`
* `PropertiesXml.c93_names_partial`
* `PropertiesScale.c95_scale_partial`
* `PropertiesExact.c95_zero`
* `PropertiesIdentities.c96_add_zero`
* `PropertiesIdentities.c96_sub_equal`
* `PropertiesIdentities.c96_mul_one`
* `PropertiesIdentities.c96_mul_zero`
* `PropertiesIdentities.c96_mul_equal`
* `PropertiesIdentities.c96_i_squared`
* `PropertiesIdentities.c96_power_zero`
* `PropertiesIdentities.c96_power_one`
* `PropertiesIdentities.c96_one_power`
* `PropertiesIdentities.c96_zero_power`
* `PropertiesIdentities.c96_power_power`
* `PropertiesIdentities.c96_power_log`
* `PropertiesIdentities.c96_i_power`
* `PropertiesIdentities.c96_log_one`
* `PropertiesIdentities.c96_log_base`
* `PropertiesIdentities.c96_log_power`
* `PropertiesIdentities.c96_mag_number`
* `PropertiesIdentities.c96_mag_i`
* `PropertiesIdentities.c96_mag_times_i`
* `PropertiesIdentities.c96_mag_plus_i`
* `PropertiesIdentities.c96_mag_complex`
* `PropertiesMoreIdentities.c96_add_logs`
* `PropertiesMoreIdentities.c96_sub_logs`
* `PropertiesMoreIdentities.c96_div_logs`
* `PropertiesMoreIdentities.c96_add_equal`
* `PropertiesMoreIdentities.c96_add_multiples`
* `PropertiesMoreIdentities.c96_add_one_more`
* `PropertiesMoreIdentities.c96_sub_one_less`
* `PropertiesMoreIdentities.c96_sub_multiple`
* `PropertiesMoreIdentities.c96_sub_multiples`
* `PropertiesMoreIdentities.c96_sub_sum`
* `PropertiesMoreIdentities.c96_sub_difference`
* `PropertiesMoreIdentities.c96_mul_by_power`
* `PropertiesMoreIdentities.c96_mul_power_by`
* `PropertiesMoreIdentities.c96_mul_powers`
* `PropertiesMoreIdentities.c96_mul_multiple`
* `PropertiesFundamental.c97_never_returns_classes`
* `PropertiesFundamental.c97_delegates`
* `PropertiesSwap.c98_exchanged`
* `PropertiesParts.c99_refuted`
* `PropertiesParts.c99_parts_crash`
* `PropertiesParts.c99_sines`
* `PropertiesParts.c99_never_null_partial`
* `PropertiesParts.c99_integrate_partial`

## `ClassicalDedekindReals.sig_forall_dec`, `FunctionalExtensionality.functional_extensionality_dep`

* `PropertiesZerosInt.c28_integers`
* `PropertiesZeros.c29_missed_divisor`
* `PropertiesZerosInt.c29_integers_partial`
* `PropertiesZerosInt.c30_answers_partial`
* `PropertiesEvaluate.c74_rationals`

## `ClassicalDedekindReals.sig_forall_dec`, `ClassicalDedekindReals.sig_not_dec`, `Classical_Prop.classic`, `FunctionalExtensionality.functional_extensionality_dep`

* `PropertiesTree.c03_build_value`
* `PropertiesTree.c04_cast_value`
* `PropertiesExact.c06_doubles`
* `PropertiesTree.c08_refuted`
* `PropertiesTree.c08_equals_value_partial`
* `PropertiesTree.c08_both_ways_partial`
* `PropertiesPage.c101_polynomials`
* `PropertiesPage.c101_doubles`
* `PropertiesSimplify.c12_refuted`
* `PropertiesSimplify.c12_simplify_value_partial`
* `PropertiesPoly.c58_value`
* `PropertiesPoly.c58_doubles`
* `PropertiesSimplify.c13_refuted`
* `PropertiesPolyDiff.c67_value`
* `PropertiesProd.c69_value`
* `PropertiesQuot.c76_value`
* `PropertiesSimplify.c20_refuted`
* `PropertiesCalculus.c21_refuted`
* `PropertiesCalculus.c21_differentiate_partial`
* `PropertiesCalculus.c22_refuted`
* `PropertiesCalculus.c22_inner_only`
* `PropertiesCalculus.c22_simplify_nested_partial`
* `PropertiesSubst.c24_refuted`
* `PropertiesSubst.c24_substitute_partial`
* `PropertiesSubst.c25_refuted`
* `PropertiesSubst.c25_absent_variable_partial`
* `PropertiesIntegral.c26_refuted`
* `PropertiesIntegral.c26_reciprocal`
* `PropertiesIntegral.c26_seven_terms`
* `PropertiesIntegral.c26_variable_C`
* `PropertiesIntegral.c26_antiderivative_partial`
* `PropertiesIntegral.c27_refuted`
* `PropertiesIntegral.c27_definite_partial`
* `PropertiesDefinite.c75_definite_partial`
* `PropertiesZeros.c28_only_roots`
* `PropertiesZeros.c28_poly_value`
* `PropertiesZerosInt.c28_doubles`
* `PropertiesZeros.c29_refuted`
* `PropertiesZeros.c29_rational_roots_partial`
* `PropertiesZeros.c29_low_degree`
* `PropertiesZerosInt.c29_doubles_partial`
* `PropertiesZeros.c30_negative_exponent`
* `PropertiesZeros.c30_find_zeros_partial`
* `PropertiesZerosInt.c30_doubles_partial`
* `PropertiesZerosInt.c30_answers_doubles_partial`
* `PropertiesLinear.c32_construct`
* `PropertiesLinearPoly.c32_doubles`
* `PropertiesLinear.c32_linear_value`
* `PropertiesLinear.c32_repeated_terms`
* `PropertiesMatrix.c35_refuted`
* `PropertiesMatrix.c35_mul_partial`
* `PropertiesReread.c37_doubles_partial`
* `PropertiesInFix.c38_refuted`
* `PropertiesInFix.c38_refuted_unprepared`
* `PropertiesInFix.c38_value_partial`
* `PropertiesReread.c38_doubles_partial`
* `PropertiesPalm.c46_nary`
* `PropertiesSimplify.c52_refuted`
* `PropertiesSimplify.c52_operators_partial`
* `PropertiesOperators.c52_polynomials`
* `PropertiesOperators.c52_running`
* `PropertiesOperators.c52_doubles`
* `PropertiesOperators.c52_products`
* `PropertiesLinearPoly.c53_refuted`
* `PropertiesLinear.c53_solution_partial`
* `PropertiesLinearPoly.c53_integers_partial`
* `PropertiesLinearPoly.c53_doubles`
* `PropertiesMathML.c57_refuted`
* `PropertiesMathML.c57_value_partial`
* `PropertiesDecimal.c57_doubles`
* `PropertiesDecimal.c57_typed`
* `PropertiesInput.c61_texts_partial`
* `PropertiesFrontends.c62_doubles`
* `PropertiesPolyDiff.c67_doubles`
* `PropertiesTree.c68_refuted`
* `PropertiesProd.c69_doubles`
* `PropertiesZerosInt.c71_doubles`
* `PropertiesUnevaluated.c72_refuted`
* `PropertiesPolyInt.c73_refuted`
* `PropertiesPolyInt.c73_exact`
* `PropertiesPolyInt.c73_antiderivative_partial`
* `PropertiesPolyInt.c73_doubles`
* `PropertiesEvaluate.c74_doubles`
* `PropertiesDefinite.c75_refuted`
* `PropertiesDefinite.c75_exact`
* `PropertiesDefinite.c75_term_value`
* `PropertiesDefinite.c75_doubles`
* `PropertiesQuot.c76_doubles`
* `PropertiesTyped.c77_doubles`
* `PropertiesTypedCalculus.c78_value`
* `PropertiesTypedCalculus.c78_doubles`
* `PropertiesTypedCalculus.c79_refuted`
* `PropertiesTypedCalculus.c79_value`
* `PropertiesTypedCalculus.c79_doubles`
* `PropertiesTypedValue.c80_typed_value`
* `PropertiesTypedValue.c80_doubles`
* `PropertiesTypedValue.c81_typed_derivative`
* `PropertiesTypedValue.c81_doubles`
* `PropertiesInput.c83_refuted`
* `PropertiesInput.c83_doubles`
* `PropertiesInput.c84_refuted`
* `PropertiesInput.c84_value_partial`
* `PropertiesInput.c84_polynomials_partial`
* `PropertiesMatrix.c85_magnitude`
* `PropertiesNumeral.c86_refuted`
* `PropertiesNumeral.c86_float_partial`
* `PropertiesNumeral.c86_exact_partial`
* `PropertiesNumeral.c86_integers_partial`
* `PropertiesNumeral.c86_overflow`
* `PropertiesNumeral.c87_refuted`
* `PropertiesNumeral.c87_accuracy_partial`
* `PropertiesNumeral.c87_integers_partial`
* `PropertiesDecimal.c87_short_partial`
* `PropertiesDecimal.c87_seventeen`
* `PropertiesNumeral.c87_tex`
* `PropertiesNumeral.c88_refuted`
* `PropertiesNumeral.c88_integers_partial`
* `PropertiesNumeral.c88_rounded_partial`
* `PropertiesNumeral.c89_refuted`
* `PropertiesNumeral.c89_fixed_partial`
* `PropertiesNumeral.c89_integers_partial`
* `PropertiesDecimal.c89_short_partial`
* `PropertiesNumeral.c89_scientific`
* `PropertiesNumeral.c89_negative`
* `PropertiesNumeral.c90_refuted`
* `PropertiesNumeral.c90_words_partial`
* `PropertiesNumeral.c90_decimal_partial`
* `PropertiesNumeral.c90_ignored`
* `PropertiesNumeral.c90_letters`
* `PropertiesDecimal.c91_refuted`
* `PropertiesDecimal.c91_error_partial`
* `PropertiesDecimal.c91_accuracy_partial`
* `PropertiesDecimal.c91_positive_partial`
* `PropertiesXml.c92_doubles`
* `PropertiesXml.c92_apart`
* `PropertiesAnswer.c94_refuted`
* `PropertiesAnswer.c94_polynomial_partial`
* `PropertiesAnswer.c94_product_partial`
* `PropertiesAnswer.c94_derivative_partial`
* `PropertiesLike.c94_alike_partial`
* `PropertiesScale.c95_refuted`
* `PropertiesScale.c95_exact_partial`
* `PropertiesScale.c95_negation`
* `PropertiesFundamental.c97_refuted`
* `PropertiesFundamental.c97_integrand_partial`
* `PropertiesSwap.c98_value_kept`
* `PropertiesSwap.c98_sign_changed`
* `PropertiesSwap.c98_inverted`
