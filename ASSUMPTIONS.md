# What `Print Assumptions` lists for each property theorem

Generated by `tools/gen_assumptions.py`. The names are axioms of the standard library: `ClassicalDedekindReals.sig_forall_dec`, `ClassicalDedekindReals.sig_not_dec`, `FunctionalExtensionality.functional_extensionality_dep`, `Classical_Prop.classic`.

| theorem | file | axioms |
|---|---|---|
| C01_constructor_safe_and_deterministic | PropsMesh.v | none |
| C02_int_limits | PropsMesh.v | none |
| C03_edge_shared_by_two_sides | PropsMesh.v | none |
| C04_edge_signs | PropsMesh.v | none |
| C05_vertex_incidence | PropsMesh.v | none |
| C06_kite_index_inverts_cells_on_vertex | PropsMesh.v | none |
| C07_adjacency_reciprocal_iff_even | PropsMesh.v | none |
| C08_geometry_consistent | PropsMesh.v | sig_forall_dec, sig_not_dec, functional_extensionality_dep |
| C09_areas_partition_domain | PropsMesh.v | sig_forall_dec, sig_not_dec, functional_extensionality_dep |
| C100_binary64_diffusion | PropsHeatFloat.v | sig_forall_dec, sig_not_dec, classic, functional_extensionality_dep |
| C100_binary64_diffusion_lsrk5 | PropsHeatFloat.v | sig_forall_dec, sig_not_dec, classic, functional_extensionality_dep |
| C101_euler_positive_thickness_refuted | PropsDrain.v | sig_forall_dec, sig_not_dec, functional_extensionality_dep |
| C101_euler_stays_positive | PropsDrain.v | sig_forall_dec, sig_not_dec, functional_extensionality_dep |
| C101_rk4_positive_thickness_refuted | PropsDrain.v | sig_forall_dec, sig_not_dec, functional_extensionality_dep |
| C102_hyperdiffusion_converges | PropsHypd.v | sig_forall_dec, sig_not_dec, classic, functional_extensionality_dep |
| C102_mean_square_never_grows | PropsHypd.v | sig_forall_dec, sig_not_dec, functional_extensionality_dep |
| C103_tracers_mix | PropsHypd.v | sig_forall_dec, sig_not_dec, classic, functional_extensionality_dep |
| C104_energy_budget | PropsBudget.v | sig_forall_dec, sig_not_dec, functional_extensionality_dep |
| C104_viscosity_dissipates_energy | PropsBudget.v | sig_forall_dec, sig_not_dec, functional_extensionality_dep |
| C104_viscosity_dissipates_energy_refuted | PropsBudget.v | sig_forall_dec, sig_not_dec, functional_extensionality_dep |
| C105_irrotational_flow_is_uniform | PropsHodge.v | sig_forall_dec, sig_not_dec, functional_extensionality_dep |
| C105_viscosity_damps_all_other_flow | PropsHodge.v | sig_forall_dec, sig_not_dec, functional_extensionality_dep |
| C106_only_mixed_tracers_rest | PropsRest.v | sig_forall_dec, sig_not_dec, functional_extensionality_dep |
| C106_states_of_rest | PropsRest.v | sig_forall_dec, sig_not_dec, functional_extensionality_dep |
| C107_viscous_steady_states | PropsViscSteady.v | sig_forall_dec, sig_not_dec, functional_extensionality_dep |
| C108_flat_rest_has_least_energy | PropsLeast.v | sig_forall_dec, sig_not_dec, functional_extensionality_dep |
| C109_flat_rest_is_stable | PropsStable.v | sig_forall_dec, sig_not_dec, classic, functional_extensionality_dep |
| C10_weights_antisymmetric | PropsMesh.v | sig_forall_dec, sig_not_dec, functional_extensionality_dep |
| C11_uniform_reconstruction_exact | PropsMesh.v | sig_forall_dec, sig_not_dec, functional_extensionality_dep |
| C12_curl_grad_zero_iff_even | PropsMesh.v | sig_forall_dec, sig_not_dec, functional_extensionality_dep |
| C13_div_rotated_grad_zero | PropsMesh.v | sig_forall_dec, sig_not_dec, functional_extensionality_dep |
| C14_curl_of_reconstruction_is_kite_divergence | PropsMesh.v | sig_forall_dec, sig_not_dec, functional_extensionality_dep |
| C15_binary64_ceiling | PropsCeil.v | sig_forall_dec, sig_not_dec, classic, functional_extensionality_dep |
| C15_layer_padding | PropsRun.v | none |
| C16_tendency_safe_and_deterministic | PropsRun.v | none |
| C17_both_flags_out_of_bounds | PropsFlags.v | none |
| C17_both_flags_steppers | PropsFlags.v | none |
| C18_vector_length_irrelevant | PropsRun.v | none |
| C19_simd_agrees_with_scalar | PropsSimd.v | sig_forall_dec, sig_not_dec, functional_extensionality_dep |
| C19_simd_hyperviscosity_differs | PropsSimd.v | sig_forall_dec, sig_not_dec, functional_extensionality_dep |
| C20_fused_equals_split | PropsRun.v | none |
| C21_layers_independent | PropsRun.v | none |
| C22_increment_adds | PropsStep.v | sig_forall_dec, sig_not_dec, functional_extensionality_dep |
| C22_replace_forgets | PropsStep.v | none |
| C23_disabled_forcing_accumulates | PropsStep.v | sig_forall_dec, sig_not_dec, functional_extensionality_dep |
| C23_disabled_tendency_not_reset | PropsStep.v | none |
| C24_tendency_conserves_mass | PropsCons.v | sig_forall_dec, sig_not_dec, functional_extensionality_dep |
| C25_mass_conserved | PropsCons.v | sig_forall_dec, sig_not_dec, functional_extensionality_dep |
| C26_tracer_content_conserved | PropsCons.v | sig_forall_dec, sig_not_dec, functional_extensionality_dep |
| C27_circulation_is_constant | PropsCons.v | sig_forall_dec, sig_not_dec, functional_extensionality_dep |
| C28_inviscid_energy_conservation | PropsCons.v | sig_forall_dec, sig_not_dec, functional_extensionality_dep |
| C29_pv_flux_does_no_work | PropsCons.v | sig_forall_dec, sig_not_dec, functional_extensionality_dep |
| C30_lake_at_rest | PropsSteady.v | sig_forall_dec, sig_not_dec, functional_extensionality_dep |
| C30_program_at_rest | PropsDriver.v | sig_forall_dec, sig_not_dec, functional_extensionality_dep |
| C31_program_uniform_flow | PropsDriver.v | sig_forall_dec, sig_not_dec, functional_extensionality_dep |
| C31_uniform_flow | PropsSteady.v | sig_forall_dec, sig_not_dec, functional_extensionality_dep |
| C32_uniform_concentration_lsrk | PropsTracer.v | sig_forall_dec, sig_not_dec, functional_extensionality_dep |
| C32_uniform_concentration_rk4 | PropsTracer.v | sig_forall_dec, sig_not_dec, functional_extensionality_dep |
| C32_uniform_concentration_tendency | PropsTracer.v | sig_forall_dec, sig_not_dec, functional_extensionality_dep |
| C33_diffusion_dissipates | PropsSteady.v | sig_forall_dec, sig_not_dec, functional_extensionality_dep |
| C34_hyperviscosity_dissipates | PropsSteady.v | sig_forall_dec, sig_not_dec, functional_extensionality_dep |
| C34_simd_hyperviscosity_dissipates_refuted | PropsSimd.v | sig_forall_dec, sig_not_dec, functional_extensionality_dep |
| C34_viscosity_dissipates | PropsSteady.v | sig_forall_dec, sig_not_dec, functional_extensionality_dep |
| C35_clamp_inert | PropsSteady.v | sig_forall_dec, sig_not_dec, functional_extensionality_dep |
| C35_clamp_never_taken | PropsSteady.v | sig_forall_dec, sig_not_dec, functional_extensionality_dep |
| C36_edge_thickness_between | PropsTrap.v | sig_forall_dec, sig_not_dec, functional_extensionality_dep |
| C36_no_division_by_zero | PropsTrap.v | sig_forall_dec, sig_not_dec, functional_extensionality_dep |
| C36_vertex_thickness_between | PropsTrap.v | sig_forall_dec, sig_not_dec, functional_extensionality_dep |
| C36_zero_thickness_divides_by_zero | PropsTrap.v | sig_forall_dec, sig_not_dec, functional_extensionality_dep |
| C37_coefficients_not_positive_are_off | PropsRun.v | none |
| C38_exchanged_names_harmless | PropsTracer.v | functional_extensionality_dep |
| C38_mean_and_flux_thickness_identical | PropsTracer.v | none |
| C39_rk4_in_floating_point | PropsStep.v | none |
| C39_rk4_is_classical | PropsStep.v | sig_forall_dec, sig_not_dec, functional_extensionality_dep |
| C39_tendency_exists | PropsStep.v | none |
| C40_lsrk_is_low_storage_scheme | PropsStep.v | sig_forall_dec, sig_not_dec, functional_extensionality_dep |
| C41_lsrk_history_independent | PropsStep.v | sig_forall_dec, sig_not_dec, functional_extensionality_dep |
| C42_nan_persists | PropsStep.v | none |
| C43_unsupported_stage_count_does_nothing | PropsStep.v | sig_forall_dec, sig_not_dec, functional_extensionality_dep |
| C44_rk4_exact_for_cubic_thickness_forcing | PropsForced.v | sig_forall_dec, sig_not_dec, functional_extensionality_dep |
| C44_rk4_exact_for_uniform_cubic_forcing | PropsForced.v | sig_forall_dec, sig_not_dec, functional_extensionality_dep |
| C44_rk4_order_conditions | PropsStep.v | sig_forall_dec, sig_not_dec, functional_extensionality_dep |
| C45_lsrk5_order_conditions | PropsStep.v | sig_forall_dec, sig_not_dec, functional_extensionality_dep |
| C46_forcing_used_inside_the_step_only | PropsRun.v | sig_forall_dec, sig_not_dec, functional_extensionality_dep |
| C47_disabled_variables_frozen | PropsStep.v | sig_forall_dec, sig_not_dec, functional_extensionality_dep |
| C47_fresh_stepper | PropsDriver.v | sig_forall_dec, sig_not_dec, functional_extensionality_dep |
| C47_lsrk_constructor_clears | PropsDriver.v | sig_forall_dec, sig_not_dec, functional_extensionality_dep |
| C48_mesh_and_parameters_not_modified | PropsRun.v | none |
| C49_diagnostics | PropsSteady.v | sig_forall_dec, sig_not_dec, functional_extensionality_dep |
| C50_f0_unused_without_velocity_tendency | PropsRun.v | none |
| C51_rk4_inertial_oscillation | PropsForced.v | sig_forall_dec, sig_not_dec, functional_extensionality_dep |
| C51_rk4_stability_limit | PropsForced.v | sig_forall_dec, sig_not_dec, functional_extensionality_dep |
| C51_uniform_flow_rotates | PropsForced.v | sig_forall_dec, sig_not_dec, functional_extensionality_dep |
| C52_initial_state | PropsDriver.v | none |
| C52_programs_are_safe_and_deterministic | PropsDriver.v | none |
| C53_time_loop_reaches_the_end | PropsDriver.v | sig_forall_dec, sig_not_dec, functional_extensionality_dep |
| C54_double_vortex_checks_pass | PropsTests.v | sig_forall_dec, sig_not_dec, classic, functional_extensionality_dep |
| C54_nan_passes_the_checks | PropsTests.v | none |
| C55_double_vortex_is_balanced | PropsTests.v | sig_forall_dec, sig_not_dec, functional_extensionality_dep |
| C55_double_vortex_periodic_refuted | PropsTests.v | sig_forall_dec, sig_not_dec, classic, functional_extensionality_dep |
| C56_manufactured_solution_is_periodic | PropsTests.v | sig_forall_dec, sig_not_dec, functional_extensionality_dep |
| C56_manufactured_solution_solves_the_equations | PropsTests.v | sig_forall_dec, sig_not_dec, functional_extensionality_dep |
| C57_advection_thickness | PropsTests.v | sig_forall_dec, sig_not_dec, functional_extensionality_dep |
| C57_tracer_tests_exact_solutions | PropsTests.v | sig_forall_dec, sig_not_dec, functional_extensionality_dep |
| C58_operator_test_formulas | PropsTests.v | sig_forall_dec, sig_not_dec, functional_extensionality_dep |
| C59_tendency_is_the_discrete_equations | PropsEq.v | sig_forall_dec, sig_not_dec, functional_extensionality_dep |
| C60_curl_first_order | PropsConsist.v | sig_forall_dec, sig_not_dec, classic, functional_extensionality_dep |
| C60_divergence_second_order | PropsConsist.v | sig_forall_dec, sig_not_dec, classic, functional_extensionality_dep |
| C60_gradient_and_mean_second_order | PropsConsist.v | sig_forall_dec, sig_not_dec, classic, functional_extensionality_dep |
| C60_reconstruction_second_order | PropsConsist.v | sig_forall_dec, sig_not_dec, classic, functional_extensionality_dep |
| C61_tendency_consistent | PropsConsist.v | sig_forall_dec, sig_not_dec, classic, functional_extensionality_dep |
| C61_tracer_tendency_consistent | PropsConsist.v | sig_forall_dec, sig_not_dec, classic, functional_extensionality_dep |
| C62_viscosity_consistent_refuted | PropsConsist.v | sig_forall_dec, sig_not_dec, classic, functional_extensionality_dep |
| C62_viscous_tendency_limit | PropsVisc.v | sig_forall_dec, sig_not_dec, classic, functional_extensionality_dep |
| C62_viscous_tendency_refuted | PropsVisc.v | sig_forall_dec, sig_not_dec, classic, functional_extensionality_dep |
| C62_viscous_term_limit | PropsConsist.v | sig_forall_dec, sig_not_dec, classic, functional_extensionality_dep |
| C63_odd_rows_refuted | PropsShift.v | sig_forall_dec, sig_not_dec, functional_extensionality_dep |
| C63_translation_equivariance | PropsShift.v | none |
| C63_translation_is_geometric | PropsShift.v | sig_forall_dec, sig_not_dec, functional_extensionality_dep |
| C64_tracers_are_passive_and_independent | PropsShift.v | none |
| C65_hyperviscosity_consistent_refuted | PropsHyper.v | sig_forall_dec, sig_not_dec, classic, functional_extensionality_dep |
| C65_hyperviscous_tendency_limit | PropsVisc.v | sig_forall_dec, sig_not_dec, classic, functional_extensionality_dep |
| C65_hyperviscous_term_limit | PropsHyper.v | sig_forall_dec, sig_not_dec, classic, functional_extensionality_dep |
| C66_irrotational_stays_irrotational | PropsVort.v | sig_forall_dec, sig_not_dec, functional_extensionality_dep |
| C66_uniform_potential_vorticity_lsrk_step | PropsVort.v | sig_forall_dec, sig_not_dec, functional_extensionality_dep |
| C66_uniform_potential_vorticity_rk4_step | PropsVort.v | sig_forall_dec, sig_not_dec, functional_extensionality_dep |
| C66_uniform_potential_vorticity_tendency | PropsVort.v | sig_forall_dec, sig_not_dec, functional_extensionality_dep |
| C66_vorticity_equation | PropsVort.v | sig_forall_dec, sig_not_dec, functional_extensionality_dep |
| C67_tracer_superposition | PropsSuper.v | sig_forall_dec, sig_not_dec, functional_extensionality_dep |
| C68_larger_step_refuted | PropsDiffuse.v | sig_forall_dec, sig_not_dec, functional_extensionality_dep |
| C68_maximum_principle | PropsDiffuse.v | sig_forall_dec, sig_not_dec, functional_extensionality_dep |
| C68_with_advection_refuted | PropsDiffuse.v | sig_forall_dec, sig_not_dec, functional_extensionality_dep |
| C69_discrete_wave_number | PropsWaves.v | sig_forall_dec, sig_not_dec, classic, functional_extensionality_dep |
| C69_plane_waves | PropsWaves.v | sig_forall_dec, sig_not_dec, functional_extensionality_dep |
| C70_rk4_hyperdiffusion_step_refuted | PropsWaves.v | sig_forall_dec, sig_not_dec, functional_extensionality_dep |
| C70_waves_do_not_grow | PropsWaves.v | sig_forall_dec, sig_not_dec, classic, functional_extensionality_dep |
| C71_diffusion_test_error | PropsWaves.v | sig_forall_dec, sig_not_dec, classic, functional_extensionality_dep |
| C71_diffusion_test_passes | PropsWaves.v | sig_forall_dec, sig_not_dec, classic, functional_extensionality_dep |
| C71_hyperdiffusion_test_error | PropsWaves.v | sig_forall_dec, sig_not_dec, classic, functional_extensionality_dep |
| C71_hyperdiffusion_test_passes | PropsWaves.v | sig_forall_dec, sig_not_dec, classic, functional_extensionality_dep |
| C72_frozen_flow_transport | PropsAdv.v | sig_forall_dec, sig_not_dec, functional_extensionality_dep |
| C73_discrete_frequency | PropsAdv.v | sig_forall_dec, sig_not_dec, classic, functional_extensionality_dep |
| C73_waves_in_a_uniform_flow | PropsAdv.v | sig_forall_dec, sig_not_dec, functional_extensionality_dep |
| C74_advection_is_stable | PropsAdv.v | sig_forall_dec, sig_not_dec, functional_extensionality_dep |
| C74_euler_advection_refuted | PropsAdv.v | sig_forall_dec, sig_not_dec, functional_extensionality_dep |
| C75_uniform_advection_converges | PropsAdv.v | sig_forall_dec, sig_not_dec, classic, functional_extensionality_dep |
| C76_operator_errors | PropsOp.v | sig_forall_dec, sig_not_dec, classic, functional_extensionality_dep |
| C76_operator_test_is_safe | PropsOp.v | none |
| C76_operator_test_passes | PropsOp.v | sig_forall_dec, sig_not_dec, classic, functional_extensionality_dep |
| C77_disturbed_programs | PropsLin.v | sig_forall_dec, sig_not_dec, functional_extensionality_dep |
| C77_linear_tendency | PropsLin.v | sig_forall_dec, sig_not_dec, functional_extensionality_dep |
| C77_small_disturbances | PropsLin.v | sig_forall_dec, sig_not_dec, functional_extensionality_dep |
| C78_disturbances_do_not_grow | PropsLin.v | sig_forall_dec, sig_not_dec, functional_extensionality_dep |
| C78_energy_tendency | PropsVisc.v | sig_forall_dec, sig_not_dec, functional_extensionality_dep |
| C78_one_stage_refuted | PropsLin.v | sig_forall_dec, sig_not_dec, functional_extensionality_dep |
| C79_balanced_flows_stay | PropsLin.v | sig_forall_dec, sig_not_dec, functional_extensionality_dep |
| C79_potential_vorticity_stays | PropsLin.v | sig_forall_dec, sig_not_dec, functional_extensionality_dep |
| C80_gravity_waves | PropsLin.v | sig_forall_dec, sig_not_dec, functional_extensionality_dep |
| C80_standing_waves_converge | PropsLin.v | sig_forall_dec, sig_not_dec, classic, functional_extensionality_dep |
| C81_reconstruction_contracts | PropsLin.v | sig_forall_dec, sig_not_dec, functional_extensionality_dep |
| C82_frozen_velocity | PropsFloat.v | sig_forall_dec, sig_not_dec, classic, functional_extensionality_dep |
| C82_mass_drift | PropsFloat.v | sig_forall_dec, sig_not_dec, classic, functional_extensionality_dep |
| C82_tendency_mass_error | PropsFloat.v | sig_forall_dec, sig_not_dec, classic, functional_extensionality_dep |
| C83_lake_at_rest_bit_for_bit | PropsFloat.v | sig_forall_dec, sig_not_dec, classic, functional_extensionality_dep |
| C83_uniform_tracers_bit_for_bit | PropsFloat.v | sig_forall_dec, sig_not_dec, classic, functional_extensionality_dep |
| C84_bounds_exist | PropsConv.v | sig_forall_dec, sig_not_dec, classic, functional_extensionality_dep |
| C84_tracer_transport_converges | PropsConv.v | sig_forall_dec, sig_not_dec, classic, functional_extensionality_dep |
| C84_uniform_velocity | PropsConv.v | sig_forall_dec, sig_not_dec, classic, functional_extensionality_dep |
| C85_advection_test_error | PropsTestAdv.v | sig_forall_dec, sig_not_dec, classic, functional_extensionality_dep |
| C86_frequencies | PropsPoinc.v | sig_forall_dec, sig_not_dec, classic, functional_extensionality_dep |
| C86_geostrophic_adjustment | PropsPoinc.v | sig_forall_dec, sig_not_dec, classic, functional_extensionality_dep |
| C86_inertia_gravity_waves | PropsPoinc.v | sig_forall_dec, sig_not_dec, functional_extensionality_dep |
| C87_layers_and_builds | PropsSim.v | sig_forall_dec, sig_not_dec, functional_extensionality_dep |
| C87_no_preferred_units | PropsSim.v | sig_forall_dec, sig_not_dec, functional_extensionality_dep |
| C88_advection_test_error | PropsTestNl.v | sig_forall_dec, sig_not_dec, functional_extensionality_dep |
| C88_nonlinear_test_error | PropsTestNl.v | sig_forall_dec, sig_not_dec, functional_extensionality_dep |
| C88_one_verdict | PropsTestNl.v | sig_forall_dec, sig_not_dec, classic, functional_extensionality_dep |
| C89_no_preferred_orientation | PropsMirror.v | sig_forall_dec, sig_not_dec, functional_extensionality_dep |
| C90_runs_converge_in_time | PropsTime.v | sig_forall_dec, sig_not_dec, classic, functional_extensionality_dep |
| C91_rk4_is_of_order_four | PropsOrder.v | sig_forall_dec, sig_not_dec, classic, functional_extensionality_dep |
| C92_runs_with_small_steps_agree | PropsExist.v | sig_forall_dec, sig_not_dec, classic, functional_extensionality_dep |
| C92_solutions_are_unique | PropsExist.v | sig_forall_dec, sig_not_dec, classic, functional_extensionality_dep |
| C92_solutions_exist | PropsExist.v | sig_forall_dec, sig_not_dec, classic, functional_extensionality_dep |
| C93_energy_error_of_runs | PropsEnergy.v | sig_forall_dec, sig_not_dec, classic, functional_extensionality_dep |
| C93_energy_of_rk4_runs | PropsEnergy.v | sig_forall_dec, sig_not_dec, classic, functional_extensionality_dep |
| C93_solutions_conserve_energy | PropsEnergy.v | sig_forall_dec, sig_not_dec, classic, functional_extensionality_dep |
| C94_rk4_runs_are_stable | PropsOrder.v | sig_forall_dec, sig_not_dec, classic, functional_extensionality_dep |
| C94_rk4_runs_from_nearby_states | PropsOrder.v | sig_forall_dec, sig_not_dec, classic, functional_extensionality_dep |
| C95_runs_can_be_reversed | PropsRev.v | sig_forall_dec, sig_not_dec, classic, functional_extensionality_dep |
| C95_there_and_back | PropsRev.v | sig_forall_dec, sig_not_dec, classic, functional_extensionality_dep |
| C96_variance_along_solutions | PropsVar.v | sig_forall_dec, sig_not_dec, classic, functional_extensionality_dep |
| C96_variance_of_runs | PropsVar.v | sig_forall_dec, sig_not_dec, classic, functional_extensionality_dep |
| C96_variance_rate | PropsVar.v | sig_forall_dec, sig_not_dec, functional_extensionality_dep |
| C97_hyperdiffusion_dissipates | PropsHyp.v | sig_forall_dec, sig_not_dec, functional_extensionality_dep |
| C97_hyperdiffusion_dissipates_refuted | PropsHyp.v | sig_forall_dec, sig_not_dec, functional_extensionality_dep |
| C98_diffusion_converges | PropsHeat.v | sig_forall_dec, sig_not_dec, classic, functional_extensionality_dep |
| C99_frozen_flow | PropsTrFloat.v | sig_forall_dec, sig_not_dec, classic, functional_extensionality_dep |
| C99_tracer_drift | PropsTrFloat.v | sig_forall_dec, sig_not_dec, classic, functional_extensionality_dep |
| C99_tracer_tendency_error | PropsTrFloat.v | sig_forall_dec, sig_not_dec, classic, functional_extensionality_dep |
