(** Axioms used by every property theorem (printed during the build). *)
From Verif Require Import AgainProps Basis0101Props BasisProps BindProps CaseProps ConvProps DependProps DependProps2 DiscProps DomProps EnergyProps EqProps ExnProps Expr64Props Expr64Props2 FunProps GL64Props GLConvProps GLConvProps2 GLFDerProps GLFProps GLLProps GLOProps GLProps GSplineProps HeapProps IEEE01Props IEEEDSplineProps IEEEDerivProps IEEEFunProps IEEEInterpProps IEEEProps IEEEProps2 IEEEProps3 IEEEScaleProps Int64Props IntegralProps InterpProps LFProps LagrangeProps LegendreProps MoveProps OptProps OptionsProps PathIntProps PlotProps PyBasisProps PyBasisProps2 PyFunProps RefProps ReportProps SerialProps ShareProps SobolevProps ThreadProps ToolsProps UpdateProps.
Print Assumptions C01_expression_value.
Print Assumptions C01_expression_value_concat.
Print Assumptions C02_neg_plain.
Print Assumptions C02_neg_uses_first_operand_only.
Print Assumptions C02_neg_aborts_with_assertions.
Print Assumptions C02_unary_minus_refuted.
Print Assumptions C02_double_negation_refuted.
Print Assumptions C03_sub_plain.
Print Assumptions C03_binary_minus_refuted.
Print Assumptions C04_domain.
Print Assumptions C04_domain_object.
Print Assumptions C04_domain_concat.
Print Assumptions C04_domain_moved_refuted.
Print Assumptions C04_derivative.
Print Assumptions C04_derivative_n.
Print Assumptions C05_sum_overloads.
Print Assumptions C05_product_overloads.
Print Assumptions C05_product_overloads_throw.
Print Assumptions C05_compose_overloads.
Print Assumptions C05_concat_overloads.
Print Assumptions C05_compose_domain_refuted.
Print Assumptions C05_concat_chain_refuted.
Print Assumptions C06_sum_checks.
Print Assumptions C06_difference_checks.
Print Assumptions C06_product_checks.
Print Assumptions C06_compose_checks.
Print Assumptions C06_concat_checks.
Print Assumptions C06_inplace_unchecked_refuted.
Print Assumptions C07_concat_value.
Print Assumptions C07_gap_throws.
Print Assumptions C07_totality_refuted.
Print Assumptions C08_polynomial_value.
Print Assumptions C08_polynomial_derivative.
Print Assumptions C08_power_sum_meaning.
Print Assumptions C08_empty_is_ub.
Print Assumptions C09_dot_value.
Print Assumptions C09_dot_derivative.
Print Assumptions C09_domain_mismatch_throws.
Print Assumptions C10_numbers.
Print Assumptions C10_matrices.
Print Assumptions C10_symmetric.
Print Assumptions C10_reflexive.
Print Assumptions C10_shape.
Print Assumptions C10_zero.
Print Assumptions C10_not_transitive.
Print Assumptions C11_legendre_values.
Print Assumptions C11_degree.
Print Assumptions C11_at_one.
Print Assumptions C11_orthogonal.
Print Assumptions C11_norm.
Print Assumptions C11_safe_iff.
Print Assumptions C12_legendre_derivatives.
Print Assumptions C12_time_derivative.
Print Assumptions C12_tau_derivative.
Print Assumptions C12_out_of_bounds.
Print Assumptions C12_safe.
Print Assumptions C13_matrix_entries.
Print Assumptions C13_rows_are_derivatives.
Print Assumptions C13_block_differentiates.
Print Assumptions C14_gram_correct_iff.
Print Assumptions C14_gram_order0.
Print Assumptions C14_gram_refuted.
Print Assumptions C15_lagrange_gram_tau.
Print Assumptions C15_legendre_gram_tau.
Print Assumptions C16_values.
Print Assumptions C16_cardinal.
Print Assumptions C16_partition_of_unity.
Print Assumptions C16_reproduction.
Print Assumptions C16_safe.
Print Assumptions C16_snap_refuted.
Print Assumptions C17_entries.
Print Assumptions C17_differentiates.
Print Assumptions C17_eval_derivative.
Print Assumptions C17_tau_derivative.
Print Assumptions C18_no_match.
Print Assumptions C18_correct_iff.
Print Assumptions C18_refuted.
Print Assumptions C19_values.
Print Assumptions C19_time_derivative.
Print Assumptions C19_tau_derivative.
Print Assumptions C19_safe.
Print Assumptions C20_block_exponent.
Print Assumptions C20_block_up_to_2.
Print Assumptions C20_third_refuted.
Print Assumptions C21_blocks.
Print Assumptions C21_gram_orders_1_3.
Print Assumptions C21_gram_order_0.
Print Assumptions C21_factor_close.
Print Assumptions C21_gram_order_2_value.
Print Assumptions C21_gram_order_2_refuted.
Print Assumptions C21_gram_tau.
Print Assumptions C21_unsupported.
Print Assumptions C22_history_independent.
Print Assumptions C22_requests_succeed.
Print Assumptions C22_block_differentiates.
Print Assumptions C23_continuity_history.
Print Assumptions C23_derivative_history.
Print Assumptions C23_reference_fresh.
Print Assumptions C23_reference_refuted.
Print Assumptions C24_lagrange_jumps.
Print Assumptions C24_legendre_values.
Print Assumptions C24_legendre_refuted.
Print Assumptions C24_basis0101_refuted.
Print Assumptions C25_safe.
Print Assumptions C25_no_interval.
Print Assumptions C26_value.
Print Assumptions C26_interval.
Print Assumptions C26_window.
Print Assumptions C26_breakpoints.
Print Assumptions C26_waypoints.
Print Assumptions C27_derivative.
Print Assumptions C27_one_sided.
Print Assumptions C28_throws.
Print Assumptions C28_path.
Print Assumptions C28_spline.
Print Assumptions C29_limit_refusals.
Print Assumptions C29_limits.
Print Assumptions C29_scalar_limits.
Print Assumptions C29_samples.
Print Assumptions C29_one_bound_refuted.
Print Assumptions C29_one_scalar_bound_refuted.
Print Assumptions C29_between_refuted.
Print Assumptions C29_rest_refuted.
Print Assumptions C30_plus.
Print Assumptions C30_minus.
Print Assumptions C30_assign.
Print Assumptions C30_scale.
Print Assumptions C30_incompatible.
Print Assumptions C30_start_refuted.
Print Assumptions C31_ctor.
Print Assumptions C31_copy.
Print Assumptions C31_lengths_refuted.
Print Assumptions C31_evaluation_refuted.
Print Assumptions C32_random.
Print Assumptions C32_domain_refuted.
Print Assumptions C33_atomic.
Print Assumptions C33_copies.
Print Assumptions C33_shared_refuted.
Print Assumptions C34_interpolates.
Print Assumptions C34_function.
Print Assumptions C34_free_function.
Print Assumptions C35_system.
Print Assumptions C35_equivalent.
Print Assumptions C35_arguments.
Print Assumptions C36_differentiated_system.
Print Assumptions C36_derivative.
Print Assumptions C37_short_interval.
Print Assumptions C37_wrong_count.
Print Assumptions C37_odd_dimension.
Print Assumptions C37_fresh_failure.
Print Assumptions C37_stale_refuted.
Print Assumptions C37_unchecked_refuted.
Print Assumptions C37_uninitialised_refuted.
Print Assumptions C38_structure.
Print Assumptions C38_small_refuted.
Print Assumptions C39_evaluation.
Print Assumptions C39_newton.
Print Assumptions C39_fixed_points.
Print Assumptions C39_weights.
Print Assumptions C39_residual.
Print Assumptions C39_exact_small.
Print Assumptions C40_points.
Print Assumptions C40_weights.
Print Assumptions C40_lengths_points.
Print Assumptions C40_lengths_refuted.
Print Assumptions C40_lengths_weights.
Print Assumptions C41_interpolates_all.
Print Assumptions C41_polynomials_all.
Print Assumptions C41_interpolates.
Print Assumptions C41_polynomials.
Print Assumptions C41_constructor_refuted.
Print Assumptions C42_from_function_all.
Print Assumptions C42_equal_lengths.
Print Assumptions C42_lengths_kept.
Print Assumptions C42_refusals.
Print Assumptions C42_assign_refuted.
Print Assumptions C42_from_function.
Print Assumptions C43_matrix_again.
Print Assumptions C43_update_shape.
Print Assumptions C43_inner_product.
Print Assumptions C43_reassigned.
Print Assumptions C43_reassigned_refusals.
Print Assumptions C43_compose.
Print Assumptions C43_linear.
Print Assumptions C43_matrix_nodes.
Print Assumptions C43_matrix_refusals.
Print Assumptions C43_matrix_constant.
Print Assumptions C43_matrix_symmetric.
Print Assumptions C43_matrix_constant_refuted.
Print Assumptions C43_integral.
Print Assumptions C43_integral_update_refuted.
Print Assumptions C44_differential_last.
Print Assumptions C44_distance_all.
Print Assumptions C44_distance.
Print Assumptions C45_constructor.
Print Assumptions C45_constructor_refusals.
Print Assumptions C45_value.
Print Assumptions C45_weights.
Print Assumptions C45_weights_refuted.
Print Assumptions C45_integral.
Print Assumptions C45_integral_0101.
Print Assumptions C45_integral_iff.
Print Assumptions C45_gradient.
Print Assumptions C45_short_interval.
Print Assumptions C45_wrong_count.
Print Assumptions C45_unsupported.
Print Assumptions C45_nonneg.
Print Assumptions C45_energy_refuted.
Print Assumptions C45_two_weights_refuted.
Print Assumptions C46_accuracy.
Print Assumptions C46_error_all.
Print Assumptions C46_quadrature.
Print Assumptions C46_expression.
Print Assumptions C46_linear.
Print Assumptions C46_exact.
Print Assumptions C46_exact_two_points.
Print Assumptions C46_exact_three_points.
Print Assumptions C46_nodes_exist.
Print Assumptions C46_error.
Print Assumptions C46_error_small.
Print Assumptions C46_stable.
Print Assumptions C46_spline.
Print Assumptions C46_no_interval.
Print Assumptions C46_refusals.
Print Assumptions C47_last_wins.
Print Assumptions C47_no_duplicates.
Print Assumptions C47_order.
Print Assumptions C47_use_is_neutral.
Print Assumptions C48_start.
Print Assumptions C48_feasible.
Print Assumptions C48_constraint_jacobian.
Print Assumptions C48_session.
Print Assumptions C48_refused_refuted.
Print Assumptions C49_round_trip.
Print Assumptions C49_basis_round_trip.
Print Assumptions C49_same_values.
Print Assumptions C49_same_function.
Print Assumptions C49_wrong_type.
Print Assumptions C49_missing_key.
Print Assumptions C49_bad_value.
Print Assumptions C49_integers.
Print Assumptions C49_booleans.
Print Assumptions C49_get_basis.
Print Assumptions C49_ignored_refuted.
Print Assumptions C49_ignored_dim_refuted.
Print Assumptions C49_coefficients.
Print Assumptions C49_lengths_refuted.
Print Assumptions C50_lagrange_gram_uninitialised.
Print Assumptions C50_lagrange_gram_garbage.
Print Assumptions C51_derivative_matrix.
Print Assumptions C51_basis0101_refuted.
Print Assumptions C52_exists.
Print Assumptions C52_unique.
Print Assumptions C52_history_independent.
Print Assumptions C53_storage_all.
Print Assumptions C53_storage.
Print Assumptions C53_product.
Print Assumptions C53_product_shapes.
Print Assumptions C53_linear.
Print Assumptions C53_norm.
Print Assumptions C53_scalar.
Print Assumptions C53_refusals.
Print Assumptions C53_access.
Print Assumptions C53_set_from_array.
Print Assumptions C53_domains.
Print Assumptions C54_inner_product.
Print Assumptions C54_sobolev.
Print Assumptions C54_l2.
Print Assumptions C54_l2_exact.
Print Assumptions C54_form.
Print Assumptions C54_norm_squares.
Print Assumptions C54_refusal.
Print Assumptions C54_symmetry_refuted.
Print Assumptions C54_norm_refuted.
Print Assumptions C55_optimal.
Print Assumptions C55_one_interval.
Print Assumptions C55_paths.
Print Assumptions C55_rojas.
Print Assumptions C55_one_waypoint_refuted.
Print Assumptions C55_no_waypoint_refuted.
Print Assumptions C55_rojas_cost_refuted.
Print Assumptions C55_rest_refuted.
Print Assumptions C56_converges.
Print Assumptions C56_terminates.
Print Assumptions C56_ordered.
Print Assumptions C56_sharp.
Print Assumptions C56_usable.
Print Assumptions C57_constraint_shape.
Print Assumptions C57_variable.
Print Assumptions C57_session.
Print Assumptions C57_bounds.
Print Assumptions C57_minimum.
Print Assumptions C57_attained.
Print Assumptions C57_wrong_set.
Print Assumptions C57_two_sets_refuted.
Print Assumptions C57_size_refuted.
Print Assumptions C57_update.
Print Assumptions C57_update_refuted.
Print Assumptions C57_names.
Print Assumptions C57_names_refuted.
Print Assumptions C57_cost_name.
Print Assumptions C58_basis.
Print Assumptions C58_spline.
Print Assumptions C58_symmetric.
Print Assumptions C58_reflexive.
Print Assumptions C58_codom.
Print Assumptions C58_values.
Print Assumptions C58_domain_refuted.
Print Assumptions C58_relative_refuted.
Print Assumptions C58_space.
Print Assumptions C58_transitive_refuted.
Print Assumptions C59_error.
Print Assumptions C59_finite.
Print Assumptions C60_values.
Print Assumptions C60_at.
Print Assumptions C61_search.
Print Assumptions C62_value.
Print Assumptions C62_any_order.
Print Assumptions C62_continuous.
Print Assumptions C62_offset_refuted.
Print Assumptions C63_calculus.
Print Assumptions C63_sizes.
Print Assumptions C63_set.
Print Assumptions C63_differential.
Print Assumptions C63_regrid.
Print Assumptions C63_count_refuted.
Print Assumptions C64_weights.
Print Assumptions C64_values.
Print Assumptions C64_spline.
Print Assumptions C65_agrees.
Print Assumptions C65_all_or_nothing.
Print Assumptions C65_function_refused.
Print Assumptions C65_sessions.
Print Assumptions C65_function.
Print Assumptions C65_array.
Print Assumptions C65_array_refuted.
Print Assumptions C65_function_refuted.
Print Assumptions C66_enclosure.
Print Assumptions C66_centres.
Print Assumptions C66_error.
Print Assumptions C66_nearest.
Print Assumptions C66_choice_refuted.
Print Assumptions C67_derivatives.
Print Assumptions C67_tau_derivatives.
Print Assumptions C68_system.
Print Assumptions C68_residuals.
Print Assumptions C69_waypoints.
Print Assumptions C69_breakpoints.
Print Assumptions C69_interpolation.
Print Assumptions C70_value.
Print Assumptions C70_acceptance.
Print Assumptions C70_dot_acceptance.
Print Assumptions C70_foreign.
Print Assumptions C70_negation.
Print Assumptions C70_new_dot.
Print Assumptions C70_domain.
Print Assumptions C70_derivative.
Print Assumptions C70_equality.
Print Assumptions C70_splines_refuted.
Print Assumptions C70_compose_refuted.
Print Assumptions C70_difference_refuted.
Print Assumptions C71_axes.
Print Assumptions C71_plot.
Print Assumptions C71_compare.
Print Assumptions C71_plane.
Print Assumptions C71_plane_compare.
Print Assumptions C71_plane_compare_refused.
Print Assumptions C71_plane_compare_empty_refuted.
Print Assumptions C71_not_plane.
Print Assumptions C71_spline.
Print Assumptions C71_scalar_refuted.
Print Assumptions C71_bad_step.
Print Assumptions C71_compare_refuted.
Print Assumptions C71_plane_refuted.
Print Assumptions C71_waypoint_refuted.
Print Assumptions C71_legend_refuted.
Print Assumptions C71_legend.
Print Assumptions C72_scaled.
Print Assumptions C72_value.
Print Assumptions C72_throws.
Print Assumptions C72_same.
Print Assumptions C72_same_refuted.
Print Assumptions C73_matrix.
Print Assumptions C73_coefficients.
Print Assumptions C73_value.
Print Assumptions C74_nearest.
Print Assumptions C74_factor.
Print Assumptions C74_values.
Print Assumptions C74_derivatives.
Print Assumptions C74_spline.
Print Assumptions C75_derivative.
Print Assumptions C75_zero.
Print Assumptions C76_first_derivative.
Print Assumptions C76_repeated_derivative.
Print Assumptions C76_order_ignored.
Print Assumptions C76_order_refuted.
Print Assumptions C76_norm.
Print Assumptions C76_norm_refuted.
Print Assumptions C77_least_cost.
Print Assumptions C77_polynomial.
Print Assumptions C77_exp_trig.
Print Assumptions C77_least_cost_pieces.
Print Assumptions C77_admissible.
Print Assumptions C78_points.
Print Assumptions C78_weights.
Print Assumptions C78_ordered.
Print Assumptions C78_rule.
Print Assumptions C78_nearest.
Print Assumptions C79_rule.
Print Assumptions C79_polynomials.
Print Assumptions C79_lipschitz.
Print Assumptions C79_grid.
Print Assumptions C79_grid_weights.
Print Assumptions C80_linear.
Print Assumptions C80_components.
Print Assumptions C80_constant.
Print Assumptions C80_translation.
Print Assumptions C80_reversed.
Print Assumptions C80_dilated.
Print Assumptions C80_cost_of_time.
Print Assumptions C80_fewer_waypoints.
Print Assumptions C80_stable.
Print Assumptions C80_binary64.
Print Assumptions C81_value_semantics.
Print Assumptions C81_one_owner.
Print Assumptions C81_no_cycles.
Print Assumptions C81_variables_are_trees.
Print Assumptions C81_variables_evaluate.
Print Assumptions C81_moved_operand_refuted.
Print Assumptions C82_values.
Print Assumptions C82_gradient.
Print Assumptions C82_one_vector_refuted.
Print Assumptions C82_overwritten_refuted.
Print Assumptions C82_feedback_refuted.
Print Assumptions C83_values.
Print Assumptions C83_moved_from.
Print Assumptions C83_mixed.
Print Assumptions C83_moved_value.
Print Assumptions C83_moved_time.
Print Assumptions C83_basis_left.
Print Assumptions C83_moved_value_refuted.
Print Assumptions C83_basis_gram_refuted.
Print Assumptions C83_moved_time_refuted.
Print Assumptions C84_parallel.
Print Assumptions C84_ends.
Print Assumptions C84_buffers.
Print Assumptions C84_shared_refuted.
Print Assumptions C84_copies_refuted.
Print Assumptions C84_counts.
Print Assumptions C85_parallel.
Print Assumptions C85_ends.
Print Assumptions C85_prepare.
Print Assumptions C85_first_refuted.
Print Assumptions C86_slopes.
Print Assumptions C86_integral.
Print Assumptions C86_polynomials.
Print Assumptions C86_inner_product.
Print Assumptions C86_norm.
Print Assumptions C87_library.
Print Assumptions C87_python_refuted.
Print Assumptions C87_constructor.
Print Assumptions C87_copy.
Print Assumptions C87_interpolator.
Print Assumptions C87_norm.
Print Assumptions C87_get_basis.
Print Assumptions C87_methods.
Print Assumptions C87_library_methods.
Print Assumptions C87_dimension.
Print Assumptions C88_answers.
Print Assumptions C88_one_writer.
Print Assumptions C88_threads_refuted.
Print Assumptions C88_numbers.
Print Assumptions C88_matrices.
Print Assumptions C88_zero.
Print Assumptions C88_stale_refuted.
Print Assumptions C88_equal_refuted.
Print Assumptions C88_sums_store.
Print Assumptions C88_mixed_refuted.
Print Assumptions C88_zero_spline.
Print Assumptions C89_same_function.
Print Assumptions C89_collocation.
Print Assumptions C89_inherited.
Print Assumptions C89_assign.
Print Assumptions C89_function_refuted.
Print Assumptions C89_nodes_refuted.
Print Assumptions C89_product_refuted.
Print Assumptions C89_assign_refuted.
Print Assumptions C90_value.
Print Assumptions C90_error.
Print Assumptions C90_refusal.
Print Assumptions C90_reparametrisation_refuted.
Print Assumptions C91_nodes.
Print Assumptions C91_values.
Print Assumptions C91_values_refuted.
Print Assumptions C91_product_refuted.
Print Assumptions C92_span.
Print Assumptions C92_first.
Print Assumptions C92_positions.
Print Assumptions C92_axes.
Print Assumptions C92_range_refuted.
Print Assumptions C92_stale_refuted.
Print Assumptions C92_refusals.
